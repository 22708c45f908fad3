(** C38-C41 and C56-C58: layout, ranges and fixed values of the parameter vector,
    order of the components, positivity at initialisation, the set used by the gap
    check, lines without a counterpart in the first set, and the abort of the
    virtual-map mode. *)
From Coq Require Import Reals ZArith List Bool Arith Lia Lra Permutation Sorted.
From Verif Require Import CPrelude ListLemmas SemisepModel SemisepProofs CovProofs SortModel SortProofs LogXModel LogXProofs ParamModel ParamSpec ParamProofs ParamProofs2 ParamProofs3 ParamProofs4 ParamProofs5.
Import ListNotations.
Open Scope nat_scope.

Section Prop_.
Variable nset : nat.
Variable nlset : nat -> nat.
Variable ng : nat.
Variable uniform : nat.
Variable uniform_var : bool.
Notation nvar := (num_params_var nset uniform_var).
Notation np := (num_params nset nlset ng uniform uniform_var).
Notation nlines := (nlines nset nlset uniform).
Notation slot_at := (slot_at nset ng uniform_var).
Notation slot := (slot nset nlset ng uniform uniform_var).
Notation tied := (tied nset nlset ng uniform uniform_var).
Notation respects := (respects nset nlset ng uniform uniform_var).
Notation ordered := (ordered nset nlset ng uniform uniform_var).
Notation has_line := (has_line nset nlset).
(** the table as the program fills it *)
Notation idxs := (set_idx_line_pm nset nlset ng uniform uniform_var unset).

(** the slot the program uses for role r of line j of set i *)
Definition code_slot (i j : nat) (r : role) (s : nat) : Prop := exists b, idxs i j = Some b /\ s = b + offset r.

Lemma code_slot_eq i j r s : code_slot i j r s <-> has_line i j /\ s = slot i j r.
Proof.
  unfold code_slot. rewrite idx_spec. unfold ParamSpec.slot, ParamSpec.slot_at, ParamSpec.has_line, unset.
  destruct (Nat.ltb_spec i nset), (Nat.ltb_spec j (nlset i)); cbn [andb].
  - split; [intros (b & E & ->); assert (b = per_line ng * line_no nlset uniform i j + nvar) as -> by congruence; split; [split; assumption|lia]|intros [_ ->]; eexists; split; [reflexivity|lia]].
  - split; [intros (b & [=] & _)|intros [[? ?] _]; lia].
  - split; [intros (b & [=] & _)|intros [[? ?] _]; lia].
  - split; [intros (b & [=] & _)|intros [[? ?] _]; lia].
Qed.

(** ** C38 *)
(** Only existing lines have an entry. *)
Theorem C38_only_lines : forall i j, (exists b, idxs i j = Some b) <-> has_line i j.
Proof.
  intros i j. rewrite idx_spec. unfold ParamSpec.has_line, unset. destruct (Nat.ltb_spec i nset), (Nat.ltb_spec j (nlset i)); cbn [andb].
  - split; [intros _; split; assumption|eauto].
  - split; [intros (b & [=])|intros [? ?]; lia].
  - split; [intros (b & [=])|intros [? ?]; lia].
  - split; [intros (b & [=])|intros [? ?]; lia].
Qed.
(** Not shared: every role of every line has a slot of its own. *)
Theorem C38_own_slot : uniform <> 1 -> forall i j r i' j' r' s, role_ok ng r -> role_ok ng r' ->
  code_slot i j r s -> code_slot i' j' r' s -> i = i' /\ j = j' /\ r = r'.
Proof.
  intros Hu i j r i' j' r' s Hr Hr' H H'. apply code_slot_eq in H, H'. destruct H as [Hl ->], H' as [Hl' E].
  apply (slot_inj nset nlset ng uniform uniform_var); auto.
Qed.
(** The variability parameters and the slots of the lines fill the vector, and
    nothing lies outside it. *)
Theorem C38_tile :
  (forall i j r s, role_ok ng r -> code_slot i j r s -> nvar <= s < np) /\
  (forall s, s < np -> s < nvar \/ exists i j r, role_ok ng r /\ code_slot i j r s).
Proof.
  split.
  - intros i j r s Hr H. apply code_slot_eq in H. destruct H as [[Hi Hj] ->]. apply slot_at_lt; [|exact Hr]. apply line_no_lt; assumption.
  - intros s Hs. destruct (slot_cases nset nlset ng uniform uniform_var s Hs) as [H|(m & r & Hm & Hr & ->)]; [left; exact H|right].
    destruct (line_no_cover nset nlset uniform m Hm) as (i & j & Hi & Hj & ->). exists i, j, r. split; [exact Hr|]. apply code_slot_eq. split; [split; assumption|reflexivity].
Qed.
(** Shared: two lines use the same slot exactly if they have the same number and
    the slot the same role. *)
Theorem C38_shared : uniform = 1 -> forall i j r s i' j' r' s', role_ok ng r -> role_ok ng r' ->
  code_slot i j r s -> code_slot i' j' r' s' -> (s = s' <-> j = j' /\ r = r').
Proof.
  intros Hu i j r s i' j' r' s' Hr Hr' H H'. apply code_slot_eq in H, H'. destruct H as [_ ->], H' as [_ ->].
  unfold ParamSpec.slot, line_no. rewrite Hu. cbn [Nat.eqb]. split; [apply slot_at_inj; assumption|intros [-> ->]; reflexivity].
Qed.
(** The variability parameters: three per set, or three in all. *)
Theorem C38_variability :
  (forall i c, i < nset -> c < 3 -> idx_con_pm uniform_var i + c < nvar) /\
  (0 < nset -> forall s, s < nvar -> exists i c, i < nset /\ c < 3 /\ s = idx_con_pm uniform_var i + c) /\
  (uniform_var = false -> forall i c i' c', c < 3 -> c' < 3 -> idx_con_pm uniform_var i + c = idx_con_pm uniform_var i' + c' -> i = i' /\ c = c') /\
  (uniform_var = true -> forall i i', idx_con_pm uniform_var i = idx_con_pm uniform_var i').
Proof.
  unfold idx_con_pm, num_params_var. destruct uniform_var.
  - split; [lia|]. split; [|split; [discriminate|reflexivity]]. intros Hn s Hs. exists 0, s. lia.
  - split; [lia|]. split; [|split; [|discriminate]].
    + intros Hn s Hs. pose proof (Nat.div_mod s 3 ltac:(lia)). pose proof (Nat.mod_upper_bound s 3 ltac:(lia)). exists (s / 3), (s mod 3). lia.
    + lia.
Qed.
(** Centres are recognised, and numbered, correctly from the slot alone. *)
Theorem C38_centre_test : forall i j r s, role_ok ng r -> code_slot i j r s ->
  let (yes, k) := check_gauss_center nset ng uniform_var s in
  (yes = true <-> exists k', r = Centre k' /\ k = Z.of_nat k').
Proof.
  intros i j r s Hr H. apply code_slot_eq in H. destruct H as [_ ->]. unfold ParamSpec.slot.
  destruct (check_centre nset ng uniform_var (line_no nlset uniform i j) r Hr) as [A B].
  destruct (check_gauss_center _ _ _ _) as [yes k]. cbn [fst snd] in *. subst yes. destruct r as [|x|x|x]; cbn [is_centre].
  3:{ split; [|reflexivity]. intros _. exists x. split; [reflexivity|]. apply B. reflexivity. }
  all: split; [discriminate|intros (k' & [=] & _)].
Qed.
(** The ranges are stored in the same layout as the index table uses: the ranges of
    the slot of a role are those meant for that role. *)
Definition range_of (g : ranges) (s : nat) : R * R := (lo g s, hi g s).
Definition meant (sys : R * R) (amp lag width : nat -> R * R) (r : role) : R * R :=
  match r with SysErr => sys | Amp k => amp k | Centre k => lag k | Width k => width k end.
Theorem C38_ranges : forall var_param var_param_std var_range line_range tlp pr lag_prior width_prior ratio given r0,
  let line := set_par_range_line nset nlset ng uniform uniform_var var_param var_param_std var_range line_range tlp pr lag_prior width_prior given r0 in
  let pmap := set_par_range_pmap nset nlset ng uniform uniform_var var_param var_param_std var_range line_range lag_prior width_prior ratio r0 in
  let vmap := set_par_range_vmap nset nlset ng uniform uniform_var var_range line_range tlp pr lag_prior width_prior given r0 in
  let lag := lag_interval ng line_range tlp pr lag_prior in
  let width := width_interval ng line_range tlp width_prior given in
  forall i j r s, role_ok ng r -> code_slot i j r s ->
    range_of line s = meant (line_range 0) (fun _ => line_range 1) lag width r /\
    range_of pmap s = meant (line_range 0) (fun k => match k with O => line_range 1 | S k => ratio k end) lag_prior width_prior r /\
    range_of vmap s = meant (line_range 0)
      (fun k => if (k =? 0) && (line_no nlset uniform i j =? 0) then (ln 0.1, snd (line_range 1)) else line_range 1) lag width r.
Proof.
  intros var_param var_param_std var_range line_range tlp pr lag_prior width_prior ratio given r0 line pmap vmap lag width i j r s Hr H.
  apply code_slot_eq in H. destruct H as [[Hi Hj] ->].
  assert (Hm := line_no_lt nset nlset uniform i j Hi Hj). unfold ParamSpec.slot, ParamSpec.slot_at, range_of.
  assert (G : forall var sys amp lag width g, g = set_ranges nset nlset ng uniform uniform_var var sys amp lag width r0 ->
    (lo g (nvar + line_no nlset uniform i j * per_line ng + offset r), hi g (nvar + line_no nlset uniform i j * per_line ng + offset r))
    = meant sys (amp (line_no nlset uniform i j)) lag width r).
  { intros var sys amp lag0 width0 g ->. destruct (set_ranges_spec nset nlset ng uniform uniform_var var sys amp lag0 width0 r0) as [_ A].
    destruct (A _ Hm) as [A0 Ak]. destruct r as [|k|k|k]; cbn [offset meant role_ok] in *; [rewrite Nat.add_0_r; exact A0|apply Ak; exact Hr..]. }
  split; [|split].
  - refine (eq_trans (G _ _ _ _ _ line eq_refl) _). destruct r; reflexivity.
  - refine (eq_trans (G _ _ _ _ _ pmap eq_refl) _). destruct r as [|k|k|k]; try reflexivity.
    cbn [meant]. destruct k as [|k]; [reflexivity|]. cbn [Nat.eqb]. f_equal. lia.
  - refine (eq_trans (G _ _ _ _ _ vmap eq_refl) _). destruct r; reflexivity.
Qed.

(** ** C39 and C40 *)
(** one perturbation: the integers drawn until a free parameter is hit, the heavy
    tailed number, the recorded limits and the level *)
Record draw := Draw { ints : list nat; step : R; limits : arr; level : Z; levels : Z }.
Definition run (perturb : list nat -> R -> arr -> Z -> Z -> arr -> outcome (arr * R)) (ds : list draw) (pm : arr) : outcome arr :=
  foldM (fun pm d => r <- perturb (ints d) (step d) (limits d) (level d) (levels d) pm ;; Ok (fst r)) ds pm.
(** dnest_rand_int returns indices of parameters *)
Definition legal (ds : list draw) : Prop := forall d, In d ds -> forall w, In w (ints d) -> w < np.
(** every perturbation finds a free parameter *)
Definition proper (fx : fixed) (ds : list draw) : Prop := forall d, In d ds -> exists w, In w (ints d) /\ is_fixed fx w = false.

Lemma run_keeps perturb fx (P : arr -> Prop) :
  (forall W h lim l n pm, (forall w, In w W -> w < np) -> P pm ->
    match perturb W h lim l n pm with Ok (pm', _) => P pm' | Stuck => forall w, In w W -> is_fixed fx w = true | _ => False end) ->
  forall ds pm, legal ds -> proper fx ds -> P pm -> exists pm', run perturb ds pm = Ok pm' /\ P pm'.
Proof.
  intros H. unfold run. induction ds as [|d ds IH]; intros pm Hl Hp HP; [exists pm; split; [reflexivity|exact HP]|].
  cbn [foldM]. specialize (H (ints d) (step d) (limits d) (level d) (levels d) pm (Hl d (or_introl eq_refl)) HP).
  destruct (perturb _ _ _ _ _ pm) as [[pm' l]| | |]; try contradiction.
  - cbn [bind fst]. apply IH; [| |exact H].
    + intros d' Hd'. apply Hl. right. exact Hd'.
    + intros d' Hd'. apply Hp. right. exact Hd'.
  - destruct (Hp d (or_introl eq_refl)) as (w & Hw & F). rewrite (H w Hw) in F. discriminate.
Qed.

Section Modes.
Variable rng : ranges.
Variable fx : fixed.
Hypothesis nonempty : forall s, s < np -> (lo rng s <= hi rng s)%R.
Variables var_param var_param_std : arr.
Variables posivity gap : bool.
Variables width_factor lag_factor year_day : R.
Variables gap_center gap_width : arr.
Hypothesis gap_lines : gap = true -> forall i, i < nset -> 0 < nlset i.
Notation perturb_line := (perturb_line nset nlset ng uniform uniform_var rng fx var_param var_param_std posivity gap width_factor lag_factor year_day gap_center gap_width idxs).
Notation perturb_mmap := (perturb_mmap nset nlset ng uniform uniform_var rng fx var_param var_param_std posivity gap width_factor lag_factor year_day gap_center gap_width idxs).
Notation perturb_vmap := (perturb_vmap nset nlset ng uniform uniform_var rng fx var_param var_param_std posivity gap width_factor lag_factor year_day gap_center gap_width idxs).
Notation perturb_pmap := (perturb_pmap nset nlset ng uniform uniform_var rng fx var_param var_param_std posivity gap width_factor lag_factor year_day gap_center gap_width idxs).
Notation start f := (f nset nlset ng uniform uniform_var rng fx).

(** With option 2 no set has more lines than the first, and the tied parameters are
    among the fixed ones. *)
Definition ties_ok : Prop := (uniform = 2 -> forall i, i < nset -> nlset i <= nlset 0) /\ (forall s b, tied true s b -> is_fixed fx s = true).
(** The centres of a line have one range and none is fixed (tied ones apart). *)
Definition one_range (ties : bool) : Prop := forall m k, m < nlines -> k < ng -> ~ (exists b, tied ties (slot_at m (Centre k)) b) ->
  is_fixed fx (slot_at m (Centre k)) = false /\ range_of rng (slot_at m (Centre k)) = range_of rng (slot_at m (Centre 0)).
Lemma alike ties : one_range ties -> centres_alike nset nlset ng uniform uniform_var ties rng fx.
Proof. intros H m k Hm Hk Hu. destruct (H m k Hm Hk Hu) as [F E]. injection E as E1 E2. auto. Qed.

(** Any number of perturbations after a draw from the prior, in the four modes: no
    abort, every parameter in its range or at its fixed (or tied) value; and with
    lag prior 0 (pr = 0) the centres of every line in ascending order. *)
Theorem C39_line : forall pr pm0 N U, ties_ok -> (pr = 0 -> 2 <= ng /\ one_range true) -> unit U ->
  exists pm, start from_prior_line pr false width_factor idxs N U pm0 = Ok pm /\ respects true rng fx pm /\
    forall ds, legal ds -> proper fx ds -> exists pm', run (perturb_line pr) ds pm = Ok pm' /\ respects true rng fx pm'.
Proof.
  intros pr pm0 N U [T1 T2] Hpr HU.
  assert (HF : true = true -> uniform = 2 -> fits nset nlset) by (intros _; exact T1).
  destruct (from_prior_keeps nset nlset ng uniform uniform_var true rng fx nonempty HF true pr width_factor N U pm0 HU) as (pm & E & A & B).
  { intros _ H. apply alike. apply Hpr. exact H. }
  exists pm. split; [exact E|]. split; [exact A|]. intros ds Hl Hp. unfold ParamModel.perturb_line. destruct (Nat.eqb_spec pr 0) as [H|H].
  - destruct (Hpr H) as [Hng H1]. destruct (run_keeps (perturb_prior0 nset nlset ng uniform uniform_var rng fx var_param var_param_std posivity gap width_factor lag_factor year_day gap_center gap_width idxs true 0)
      fx (fun pm => respects true rng fx pm /\ ordered pm)) with (ds := ds) (pm := pm) as (pm' & R & Q & _); auto.
    + intros W h lim l n q HW [Q1 Q2]. apply perturb0_keeps; auto. apply alike. exact H1.
    + exists pm'. split; [exact R|exact Q].
  - apply run_keeps with fx; auto. intros W h lim l n q HW Q1. apply perturb1_keeps; auto.
Qed.
Theorem C40_line : forall pr pm0 N U, pr = 0 -> ties_ok -> 2 <= ng -> one_range true -> unit U ->
  exists pm, start from_prior_line pr false width_factor idxs N U pm0 = Ok pm /\ ordered pm /\
    forall ds, legal ds -> proper fx ds -> exists pm', run (perturb_line pr) ds pm = Ok pm' /\ ordered pm'.
Proof.
  intros pr pm0 N U Hpr [T1 T2] Hng H1 HU.
  assert (HF : true = true -> uniform = 2 -> fits nset nlset) by (intros _; exact T1).
  destruct (from_prior_keeps nset nlset ng uniform uniform_var true rng fx nonempty HF true pr width_factor N U pm0 HU) as (pm & E & A & B).
  { intros _ _. apply alike. exact H1. }
  exists pm. split; [exact E|]. split; [apply B; auto|]. intros ds Hl Hp. unfold ParamModel.perturb_line. subst pr. cbn [Nat.eqb].
  destruct (run_keeps (perturb_prior0 nset nlset ng uniform uniform_var rng fx var_param var_param_std posivity gap width_factor lag_factor year_day gap_center gap_width idxs true 0)
    fx (fun pm => respects true rng fx pm /\ ordered pm)) with (ds := ds) (pm := pm) as (pm' & R & _ & Q); auto.
  - intros W h lim l n q HW [Q1 Q2]. apply perturb0_keeps; auto. apply alike. exact H1.
  - exists pm'. split; [exact R|exact Q].
Qed.
Theorem C39_mmap : forall pr pm0 N U, ties_ok -> (pr = 0 -> 2 <= ng /\ one_range true) -> unit U ->
  exists pm, start from_prior_mmap pr false width_factor idxs N U pm0 = Ok pm /\ respects true rng fx pm /\
    forall ds, legal ds -> proper fx ds -> exists pm', run (perturb_mmap pr) ds pm = Ok pm' /\ respects true rng fx pm'.
Proof. exact C39_line. Qed.
Theorem C40_mmap : forall pr pm0 N U, pr = 0 -> ties_ok -> 2 <= ng -> one_range true -> unit U ->
  exists pm, start from_prior_mmap pr false width_factor idxs N U pm0 = Ok pm /\ ordered pm /\
    forall ds, legal ds -> proper fx ds -> exists pm', run (perturb_mmap pr) ds pm = Ok pm' /\ ordered pm'.
Proof. exact C40_line. Qed.
Lemma no_ties s b : ~ tied false s b.
Proof. intros [H _]. discriminate. Qed.
(** The virtual-map mode fixes a centre by itself: with lag prior 0 it may abort
    (C58). *)
Theorem C39_vmap : forall pr pm0 N U, pr <> 0 -> unit U ->
  exists pm, start from_prior_vmap pr false width_factor idxs N U pm0 = Ok pm /\ respects false rng fx pm /\
    forall ds, legal ds -> proper fx ds -> exists pm', run (perturb_vmap pr) ds pm = Ok pm' /\ respects false rng fx pm'.
Proof.
  intros pr pm0 N U Hpr HU. assert (HF : false = true -> uniform = 2 -> fits nset nlset) by discriminate.
  destruct (from_prior_keeps nset nlset ng uniform uniform_var false rng fx nonempty HF true pr width_factor N U pm0 HU) as (pm & E & A & _).
  { intros _ H. contradiction. }
  exists pm. split; [exact E|]. split; [exact A|]. intros ds Hl Hp. unfold ParamModel.perturb_vmap. apply Nat.eqb_neq in Hpr. rewrite Hpr.
  apply run_keeps with fx; auto. intros W h lim l n q HW Q1. apply perturb1_keeps; auto. intros s b H. destruct (no_ties s b H).
Qed.
Theorem C39_pmap : forall pr pm0 N U, unit U ->
  exists pm, start from_prior_pmap pr false width_factor idxs N U pm0 = Ok pm /\ respects false rng fx pm /\
    forall ds, legal ds -> proper fx ds -> exists pm', run perturb_pmap ds pm = Ok pm' /\ respects false rng fx pm'.
Proof.
  intros pr pm0 N U HU. assert (HF : false = true -> uniform = 2 -> fits nset nlset) by discriminate.
  destruct (from_prior_keeps nset nlset ng uniform uniform_var false rng fx nonempty HF false pr width_factor N U pm0 HU) as (pm & E & A & _).
  { discriminate. }
  exists pm. split; [exact E|]. split; [exact A|]. intros ds Hl Hp.
  apply run_keeps with fx; auto. intros W h lim l n q HW Q1. apply perturb1_keeps; auto. intros s b H. destruct (no_ties s b H).
Qed.
End Modes.

(** The continuum fit, with the variability parameters only. *)
Definition respects_con (rng : ranges) (fx : fixed) (pm : arr) : Prop :=
  forall s, s < nvar -> if is_fixed fx s then pm s = fix_val fx s else (lo rng s <= pm s <= hi rng s)%R.
Theorem C39_con : forall rng fx pm0 U, (forall s, s < nvar -> (lo rng s <= hi rng s)%R) -> unit U ->
  let pm := from_prior_con nset uniform_var rng fx U pm0 in
  respects_con rng fx pm /\
  forall ds, (forall d, In d ds -> forall w, In w (ints d) -> w < nvar) -> proper fx ds ->
    exists pm', run (perturb_con nset uniform_var rng fx) ds pm = Ok pm' /\ respects_con rng fx pm'.
Proof.
  intros rng fx pm0 U Hne HU pm. assert (H0 : respects_con rng fx pm).
  { unfold pm, from_prior_con. intros s Hs. set (q := for_ 0 nvar _ pm0).
    assert (Hq : forall s, s < nvar -> (lo rng s <= q s <= hi rng s)%R).
    { intros t Ht. replace (q t) with (uniform_in rng t (U t)); [apply uniform_in_range; auto|].
      unfold q. assert (G : forall n, t < n -> for_ 0 n (fun i pm => upd pm i (uniform_in rng i (U i))) pm0 t = uniform_in rng t (U t)).
      { induction n as [|n IH]; intros Hn; [lia|]. rewrite for_snoc, Nat.add_0_l. destruct (Nat.eq_dec t n) as [->|]; [apply upd_same|].
        rewrite upd_other by lia. apply IH. lia. }
      symmetry. apply G. exact Ht. }
    assert (G : forall n t, n <= nvar -> for_ 0 n (fun i pm => if is_fixed fx i then upd pm i (fix_val fx i) else pm) q t
      = if (t <? n) && is_fixed fx t then fix_val fx t else q t).
    { induction n as [|n IH]; intros t Hn; [reflexivity|]. rewrite for_snoc, Nat.add_0_l. destruct (Nat.eq_dec t n) as [->|Ht].
      - replace (n <? S n) with true by (symmetry; apply Nat.ltb_lt; lia). cbn [andb]. destruct (is_fixed fx n) eqn:F; [apply upd_same|].
        rewrite IH by lia. rewrite F, andb_false_r. reflexivity.
      - replace (t <? S n) with (t <? n) by (destruct (Nat.ltb_spec t n), (Nat.ltb_spec t (S n)); try reflexivity; lia).
        destruct (is_fixed fx n); [rewrite upd_other by lia|]; apply IH; lia. }
    rewrite G by lia. assert (Hs' := Hs). apply Nat.ltb_lt in Hs'. rewrite Hs'. cbn [andb]. destruct (is_fixed fx s); [reflexivity|]. apply Hq. exact Hs. }
  split; [exact H0|].
  clearbody pm. intros ds. revert pm H0. unfold run. induction ds as [|d ds IH]; intros pm Hp Hl Hpr; [exists pm; split; [reflexivity|exact Hp]|].
      cbn [foldM]. unfold perturb_con.
      assert (C : exists w, choose_which fx (ints d) = Ok w /\ w < nvar /\ is_fixed fx w = false).
      { destruct (Hpr d (or_introl eq_refl)) as (w0 & Hw0 & F0). assert (Hlt := Hl d (or_introl eq_refl)). revert Hw0 Hlt. generalize (ints d) as W.
        induction W as [|w W IW]; intros Hw Hlt; [destruct Hw|]. cbn [choose_which]. destruct (is_fixed fx w) eqn:F.
        - apply IW; [destruct Hw as [->|Hw]; [congruence|exact Hw]|]. intros v Hv. apply Hlt. right. exact Hv.
        - exists w. split; [reflexivity|]. split; [apply Hlt; left; reflexivity|exact F]. }
      destruct C as (w & -> & Hw & F). cbn [bind]. cbv zeta. unfold rd. assert (Hw' := Hw). apply Nat.ltb_lt in Hw'. rewrite Hw'. cbn [bind].
      match goal with |- context [dnest_wrap ?x ?a ?b] => destruct (wrap_in x a b (Hne w Hw)) as (v & E & Hv); rewrite E end. cbn [bind fst].
      apply IH.
      - intros s Hs. destruct (Nat.eq_dec s w) as [->|Hn]; [rewrite F, upd_same; exact Hv|]. rewrite upd_other by exact Hn. apply Hp. exact Hs.
      - intros d' Hd'. apply Hl. right. exact Hd'.
      - intros d' Hd'. apply Hpr. right. exact Hd'.
Qed.

(** ** The program's own set-up *)
(** Which parameters are fixed without a prior file, and at what value (log 1 for
    the systematic errors): see the definition of [own_value]. *)
Definition own_value (con_err line_err : bool) (tlp tf : nat) (lag_low lag_upper : R) (r : role) : option R :=
  let spacing := ((lag_upper - lag_low) / INR (ng - 1))%R in
  match r with
  | SysErr => if line_err then None else Some 0%R
  | Amp _ => None
  | Centre k => if (tlp =? 2) || (tlp =? 3) then Some (lag_low + INR k * spacing)%R else None
  | Width _ => if (tf =? 1) && (tlp =? 3) then Some (ln (spacing / 2)) else None
  end.
Theorem C39_own_fixed : forall con_err line_err tlp tf lag_low lag_upper,
  exists fx, set_fixed_line nset nlset ng uniform uniform_var con_err line_err tlp tf lag_low lag_upper idxs = Ok fx /\
  (forall s, s < nvar -> (is_fixed fx s = true <-> con_err = false /\ s mod 3 = 0) /\ (is_fixed fx s = true -> fix_val fx s = 0%R)) /\
  (forall i j r s, role_ok ng r -> code_slot i j r s ->
     (is_fixed fx s = true <-> own_value con_err line_err tlp tf lag_low lag_upper r <> None \/ exists b, tied true s b) /\
     (forall v, ~ (exists b, tied true s b) -> own_value con_err line_err tlp tf lag_low lag_upper r = Some v -> fix_val fx s = v)).
Proof.
  intros con_err line_err tlp tf lag_low lag_upper.
  destruct (set_fixed_line_spec nset nlset ng uniform uniform_var con_err line_err tlp tf lag_low lag_upper) as (fx & E & A & B).
  exists fx. split; [exact E|]. split; [exact A|]. intros i j r s Hr H. apply code_slot_eq in H. destruct H as [[Hi Hj] ->].
  destruct (B (line_no nlset uniform i j) r (line_no_lt nset nlset uniform i j Hi Hj) Hr) as [B1 B2].
  assert (same : own_value con_err line_err tlp tf lag_low lag_upper r = line_value ng line_err tlp tf lag_low lag_upper true r).
  { destruct r as [|k|k|k]; cbn [own_value line_value]; try reflexivity. unfold ParamModel.dlag.
    replace ((2 <=? tlp) && (tlp <=? 3)) with ((tlp =? 2) || (tlp =? 3)); [reflexivity|].
    destruct tlp as [|[|[|[|n]]]]; reflexivity. }
  rewrite same. split; [exact B1|]. intros v Hn Hv. apply B2; assumption.
Qed.
(** With them the conditions of C39_line and C40_line hold. *)
Theorem C39_own_conditions : forall var_param var_param_std var_range line_range tlp pr lag_prior width_prior given r0 con_err line_err tf lag_low lag_upper fx,
  let rng := set_par_range_line nset nlset ng uniform uniform_var var_param var_param_std var_range line_range tlp pr lag_prior width_prior given r0 in
  (uniform = 2 -> forall i, i < nset -> nlset i <= nlset 0) ->
  set_fixed_line nset nlset ng uniform uniform_var con_err line_err tlp tf lag_low lag_upper idxs = Ok fx ->
  ties_ok fx /\ (tlp = 0 -> pr = 0 -> one_range rng fx true).
Proof.
  intros var_param var_param_std var_range line_range tlp pr lag_prior width_prior given r0 con_err line_err tf lag_low lag_upper fx rng Hn E.
  destruct (set_fixed_line_spec nset nlset ng uniform uniform_var con_err line_err tlp tf lag_low lag_upper) as (fx' & E' & A & B).
  rewrite E in E'. injection E' as <-. split; [split; [exact Hn|]|].
  - intros s b Hb. assert (Hb' := Hb). destruct Hb as (_ & _ & i & j & r & Hi & [Hl1 Hl2] & Hr & Ht & -> & _).
    apply (B (line_no nlset uniform i j) r); [apply line_no_lt; assumption|exact Hr|]. right. exists b. exact Hb'.
  - intros -> ->. intros m k Hm Hk Hu. destruct (B m (Centre k) Hm Hk) as [B1 _]. split.
    + destruct (is_fixed fx (slot_at m (Centre k))) eqn:F; [|reflexivity]. exfalso. destruct (proj1 B1 eq_refl) as [G|G]; [apply G; reflexivity|exact (Hu G)].
    + assert (G : forall k, k < ng -> range_of rng (slot_at m (Centre k)) = line_range 2).
      { intros k' Hk'. unfold rng, range_of, set_par_range_line.
        match goal with |- context [set_ranges _ _ _ _ _ ?v ?s ?a ?l ?w ?r] => destruct (set_ranges_spec nset nlset ng uniform uniform_var v s a l w r) as [_ S] end.
        destruct (S m Hm) as [_ Sk]. destruct (Sk k' Hk') as (_ & S2 & _). unfold ParamSpec.slot_at. cbn [offset]. rewrite S2. reflexivity. }
      rewrite !G by lia. reflexivity.
Qed.

(** ** C41 *)
Lemma from_prior_eq rng fx sorts ties pr pos wf N U pm0 : (forall s, s < np -> (lo rng s <= hi rng s)%R) -> unit U ->
  exists pm2, (forall s, s < np -> (lo rng s <= pm2 s <= hi rng s)%R) /\ (forall s, nvar <= s < np -> pm2 s = uniform_in rng s (U (s - nvar))) /\
    from_prior nset nlset ng uniform uniform_var rng fx sorts ties pr pos wf idxs N U pm0
    = let pm3 := if sorts && (pr =? 0) then sort_centers nset nlset ng uniform uniform_var pm2 else pm2 in
      let pm4 := if pos then snd (positivity nset nlset ng uniform uniform_var rng U wf (num_params_line nset nlset ng uniform, pm3)) else pm3 in
      let pm5 := put_fixed nset nlset ng uniform uniform_var fx pm4 in
      if ties && (uniform =? 2) then set_center_width nset nlset ng idxs pm5 else Ok pm5.
Proof.
  intros Hne HU. unfold from_prior. destruct (draw_all nset nlset ng uniform uniform_var rng Hne N U pm0 HU) as (pm1 & E & Ha).
  rewrite E. cbn [bind]. cbv zeta. eexists. split; [exact Ha|]. split; [|reflexivity].
  intros s Hs. rewrite draw_line. unfold num_params in Hs.
  replace (nvar <=? s) with true by (symmetry; apply Nat.leb_le; lia). replace (s <? nvar + _) with true by (symmetry; apply Nat.ltb_lt; lia). reflexivity.
Qed.
(** What the initial draw ensures with the option on, in all modes (the two flags):
    the relation of width and centre is imposed on centre and amplitude instead. *)
Theorem C41_relation_imposed : forall sorts ties pr rng fx wf N U pm0,
  (forall s, s < np -> (lo rng s <= hi rng s)%R) -> unit U -> (0 < wf)%R -> 0 < ng -> uniform <> 2 ->
  (forall m, m < nlines -> is_fixed fx (slot_at m (Amp 0)) = false /\ is_fixed fx (slot_at m (Centre 0)) = false) ->
  exists pm, from_prior nset nlset ng uniform uniform_var rng fx sorts ties pr true wf idxs N U pm0 = Ok pm /\
    forall m, m < nlines -> (0 <= pm (slot_at m (Amp 0)) - wf * pm (slot_at m (Centre 0)))%R.
Proof.
  intros sorts ties pr rng fx wf N U pm0 Hne HU Hwf Hng Hu Hfree.
  destruct (from_prior_eq rng fx sorts ties pr true wf N U pm0 Hne HU) as (pm2 & _ & _ & E). rewrite E. cbv zeta.
  apply Nat.eqb_neq in Hu. rewrite Hu, andb_false_r. eexists. split; [reflexivity|]. intros m Hm. destruct (Hfree m Hm) as [F1 F2].
  rewrite !put_fixed_spec, F1, F2, !andb_false_r.
  apply (positivity_spec nset nlset ng uniform uniform_var rng U wf Hwf); assumption.
Qed.
(** The fallback leaves the prior range: amplitudes below one (negative logarithm)
    and non-negative centres make it happen whatever is drawn. *)
Theorem C41_range_refuted : forall sorts ties pr rng fx wf N U pm0 m,
  (forall s, s < np -> (lo rng s <= hi rng s)%R) -> unit U -> (0 < wf)%R -> 0 < ng -> uniform <> 2 ->
  (forall m, m < nlines -> is_fixed fx (slot_at m (Amp 0)) = false /\ is_fixed fx (slot_at m (Centre 0)) = false) ->
  m < nlines -> (hi rng (slot_at m (Amp 0)) < 0)%R -> (0 <= lo rng (slot_at m (Centre 0)))%R ->
  exists pm, from_prior nset nlset ng uniform uniform_var rng fx sorts ties pr true wf idxs N U pm0 = Ok pm /\
    (pm (slot_at m (Centre 0)) < lo rng (slot_at m (Centre 0)))%R.
Proof.
  intros sorts ties pr rng fx wf N U pm0 m Hne HU Hwf Hng Hu Hfree Hm Hamp Hlag.
  destruct (from_prior_eq rng fx sorts ties pr true wf N U pm0 Hne HU) as (pm2 & In2 & _ & E). rewrite E. cbv zeta.
  apply Nat.eqb_neq in Hu. rewrite Hu, andb_false_r. eexists. split; [reflexivity|]. destruct (Hfree m Hm) as [_ F2].
  rewrite put_fixed_spec, F2, andb_false_r. set (pm3 := if sorts && (pr =? 0) then sort_centers nset nlset ng uniform uniform_var pm2 else pm2).
  destruct (positivity_spec nset nlset ng uniform uniform_var rng U wf Hwf (num_params_line nset nlset ng uniform) pm3 Hng) as [_ P].
  destruct (P m Hm) as (P1 & P2 & _).
  assert (HA : slot_at m (Amp 0) < np) by (apply slot_at_lt; [exact Hm|exact Hng]).
  set (pm4 := snd (positivity nset nlset ng uniform uniform_var rng U wf (num_params_line nset nlset ng uniform, pm3))) in *.
  assert (A : (pm4 (slot_at m (Amp 0)) < 0)%R).
  { destruct P2 as [P2|(k & P2)].
    - rewrite P2. replace (pm3 (slot_at m (Amp 0))) with (pm2 (slot_at m (Amp 0))); [pose proof (In2 _ HA); lra|].
      unfold pm3. destruct (sorts && (pr =? 0)); [|reflexivity]. symmetry. apply (sort_centers_spec nset nlset ng uniform uniform_var pm2).
      intros m' k' Hm' Hk' H. apply slot_at_inj in H; [|exact Hng|exact Hk']. destruct H as [_ H]. discriminate.
    - pose proof (uniform_in_range rng (slot_at m (Amp 0)) (U k) (HU k) (Hne _ HA)) as G. rewrite <- P2 in G. lra. }
  nra.
Qed.

(** ** C56 *)
(** The gap check looks up the set of the line the changed parameter belongs to. *)
Theorem C56_set_of_parameter : uniform <> 1 -> (forall i, i < nset -> 0 < nlset i) ->
  forall i j r s, role_ok ng r -> code_slot i j r s -> get_idx_set nset idxs s = Ok i.
Proof. intros Hu Hl i j r s Hr H. apply code_slot_eq in H. destruct H as [H ->]. apply idx_set_own; assumption. Qed.
(** With shared transfer functions it is the last set whatever the parameter, even
    if that set has no such line. *)
Theorem C56_shared_refuted : uniform = 1 -> 0 < nset -> 0 < nlset (nset - 1) ->
  forall i j r s, role_ok ng r -> code_slot i j r s -> get_idx_set nset idxs s = Ok (nset - 1).
Proof.
  intros Hu Hn Hl i j r s Hr H. apply idx_set_last; auto. apply (proj1 C38_tile i j r s Hr H).
Qed.

(** ** C57 *)
(** Option 2 with more lines in a later set than in the first: every draw from the
    prior reads an index that was never written. *)
Theorem C57_missing_line_refuted : forall rng fx pr pos wf N U pm0 i,
  (forall s, s < np -> (lo rng s <= hi rng s)%R) -> unit U -> uniform = 2 -> i < nset -> nlset 0 < nlset i ->
  from_prior_line nset nlset ng uniform uniform_var rng fx pr pos wf idxs N U pm0 = UB.
Proof.
  intros rng fx pr pos wf N U pm0 i Hne HU Hu Hi Hl. unfold from_prior_line.
  destruct (from_prior_eq rng fx true true pr pos wf N U pm0 Hne HU) as (pm2 & _ & _ & E). rewrite E. cbv zeta.
  assert (T : true && (uniform =? 2) = true) by (rewrite Hu; reflexivity). rewrite T. apply center_width_UB with i; assumption.
Qed.

(** ** C58 *)
(** Virtual-map mode, lag prior 0, three or more components and negative lags
    allowed: there are draws after which the first perturbation of a centre ends the
    program. *)
Theorem C58_vmap_abort_refuted : forall sys fx rng var_param var_param_std posivity gap width_factor lag_factor year_day gap_center gap_width N pm0 a h lim lev n,
  0 < nset -> (forall i, i < nset -> 0 < nlset i) -> 3 <= ng ->
  set_fixed_vmap nset nlset ng uniform uniform_var sys idxs = Ok fx ->
  (forall s, s < np -> (lo rng s <= hi rng s)%R) -> (a < 0)%R -> (forall k, k < ng -> lo rng (slot 0 0 (Centre k)) = a) ->
  exists U w pm, unit U /\ w < np /\ from_prior_vmap nset nlset ng uniform uniform_var rng fx 0 false width_factor idxs N U pm0 = Ok pm /\
    perturb_vmap nset nlset ng uniform uniform_var rng fx var_param var_param_std posivity gap width_factor lag_factor year_day gap_center gap_width idxs 0 [w] h lim lev n pm = Exit.
Proof.
  intros sys fx rng var_param var_param_std posivity gap width_factor lag_factor year_day gap_center gap_width N pm0 a h lim lev n Hn Hl Hng Efx Hne Ha Hlo.
  destruct (vmap_first_centre nset nlset ng uniform uniform_var sys ltac:(lia) Hl) as (f & Ef & F1 & F2). rewrite Efx in Ef. injection Ef as <-.
  assert (L0 : line_no nlset uniform 0 0 = 0) by (unfold line_no; destruct (uniform =? 1); reflexivity).
  assert (HL : 0 < nlines) by (rewrite <- L0; apply line_no_lt; [exact Hn|apply Hl; exact Hn]).
  unfold ParamSpec.slot in *. rewrite ?L0 in *. specialize (F1 0 Hn). rewrite L0 in F1. destruct F1 as [F1 F1v].
  assert (HU : unit (fun _ => 0%R)) by (intros i; lra).
  destruct (from_prior_eq rng fx true false 0 false width_factor N (fun _ => 0%R) pm0 Hne HU) as (pm2 & _ & D & E). cbn [andb Nat.eqb] in E. cbv zeta in E.
  assert (inn : forall k, k < ng -> nvar <= slot_at 0 (Centre k) < np) by (intros k Hk; apply slot_at_lt; [exact HL|exact Hk]).
  assert (c : forall k, k < ng -> sort_centers nset nlset ng uniform uniform_var pm2 (slot_at 0 (Centre k)) = a).
  { intros k Hk. destruct (sort_centers_spec nset nlset ng uniform uniform_var pm2) as [_ B]. rewrite B by assumption.
    set (l := map _ _). assert (Hin : In (nth k (msort mica_cmpR l) 0%R) l).
    { apply (Permutation_in _ (proj1 (sortR_spec l))). apply nth_In. rewrite (Permutation_length (proj1 (sortR_spec l))). unfold l. rewrite map_length, seq_length. exact Hk. }
    unfold l in Hin at 2. apply in_map_iff in Hin. destruct Hin as (j & Ej & Hj). apply in_seq in Hj. rewrite <- Ej.
    rewrite D by (apply inn; lia). unfold uniform_in. rewrite Hlo by lia. ring. }
  exists (fun _ => 0%R), (slot_at 0 (Centre 1)). eexists. split; [exact HU|]. split; [apply inn; lia|]. split; [exact E|].
  set (pm5 := put_fixed _ _ _ _ _ _ _). unfold perturb_vmap. cbn [Nat.eqb]. unfold perturb_vmap_prior0, perturb_prior0.
  cbn [choose_which]. rewrite (F2 0 1 HL ltac:(lia)). cbn [bind]. cbv zeta. rewrite rd_ok by (apply inn; lia). cbn [bind].
  replace (slot_at 0 (Centre 1) <? nvar) with false by (symmetry; apply Nat.ltb_ge; apply inn; lia).
  destruct (check_centre nset ng uniform_var 0 (Centre 1) ltac:(cbn; lia)) as [C1 C2]. specialize (C2 1 eq_refl).
  destruct (check_gauss_center nset ng uniform_var (slot_at 0 (Centre 1))) as [ic ig]. cbn [fst snd] in C1, C2. subst ic ig. cbn [is_centre].
  change (Z.of_nat 1 =? 0)%Z with false. cbn [negb]. replace (Z.of_nat 1 <? Z.of_nat ng - 1)%Z with true by (symmetry; apply Z.ltb_lt; lia).
  replace (slot_at 0 (Centre 1) - 3) with (slot_at 0 (Centre 0)) by (unfold ParamSpec.slot_at; cbn [offset]; lia).
  replace (slot_at 0 (Centre 1) + 3) with (slot_at 0 (Centre (1 + 1))) by (unfold ParamSpec.slot_at; cbn [offset]; lia).
  rewrite !rd_ok by (apply inn; cbn; lia). cbn [bind].
  assert (v0 : pm5 (slot_at 0 (Centre 0)) = 0%R).
  { unfold pm5. rewrite put_fixed_spec. rewrite F1. replace (slot_at 0 (Centre 0) <? np) with true by (symmetry; apply Nat.ltb_lt; apply inn; lia). exact F1v. }
  assert (v2 : pm5 (slot_at 0 (Centre (1 + 1))) = a).
  { unfold pm5. rewrite put_fixed_spec. rewrite (F2 0 (1 + 1) HL) by (cbn; lia). rewrite andb_false_r. apply c. cbn. lia. }
  rewrite v0, v2, wrap_reversed by exact Ha. reflexivity.
Qed.
End Prop_.

(** ** Failures of C39, C40 and C41 beyond those conditions *)
(** one set with one line *)
Notation one := (fun _ : nat => 1).
Notation idxs1 ng := (set_idx_line_pm 1 one ng 0 true unset).
Notation slot1 ng := (slot 1 one ng 0 true 0 0).
Notation np1 ng := (num_params 1 one ng 0 true).
Definition free : fixed := none_fixed.

Lemma pair_sorted a b : (a <= b)%R -> msort mica_cmpR [a; b] = [a; b] /\ msort mica_cmpR [b; a] = [a; b].
Proof.
  intros H. assert (G : forall l x y, Permutation l [x; y] -> StronglySorted Rle l -> (x <= y)%R -> l = [x; y]).
  { intros l x y P S Hxy. destruct l as [|u [|v [|w l]]]; try (apply Permutation_length in P; discriminate).
    assert (Huv : (u <= v)%R) by (inversion S as [|? ? ? F]; inversion F; assumption).
    apply Permutation_length_2_inv in P as P'. apply Permutation_sym in P. apply Permutation_length_2_inv in P.
    destruct P as [E|E]; injection E as -> ->; [reflexivity|]. assert (x = y) as -> by lra. reflexivity. }
  split; apply G; try exact H; try (apply sortR_spec).
  eapply Permutation_trans; [apply sortR_spec|]. apply perm_swap.
Qed.
Lemma redraw_stop rng U wf ic n c pm : (0 <= pm (ic - 1)%nat - wf * pm ic)%R -> redraw rng U wf ic n (c, pm) = (c, pm).
Proof. intros H. destruct n as [|n]; [reflexivity|]. cbn [redraw]. destruct (Rlt_dec _ 0); [lra|reflexivity]. Qed.

Lemma redraw_step rng U wf ic n c pm : (pm (ic - 1)%nat - wf * pm ic < 0)%R ->
  redraw rng U wf ic (S (S n)) (c, pm)
  = redraw rng U wf ic (S n) (c + 2, upd (upd pm (ic - 1) (uniform_in rng (ic - 1) (U c))) ic (uniform_in rng ic (U (c + 1)))).
Proof. intros H. cbn [redraw]. destruct (Rlt_dec (pm (ic - 1)%nat - wf * pm ic) 0); [reflexivity|lra]. Qed.

(** A prior file that gives the two components centre ranges [5,10] and [0,5]: with
    lag prior 0 the sorted centres are outside their ranges. *)
Theorem C39_loaded_ranges_refuted : exists rng U,
  (forall s, s < np1 2 -> (lo rng s <= hi rng s)%R) /\ unit U /\
  (forall k, k < 2 -> range_of rng (slot1 2 (Centre k)) = if k =? 0 then (5, 10)%R else (0, 5)%R) /\
  forall N pm0, exists pm, from_prior_line 1 one 2 0 true rng free 0 false 1 (idxs1 2) N U pm0 = Ok pm /\
    pm (slot1 2 (Centre 0)) = 2%R /\ pm (slot1 2 (Centre 1)) = 7%R.
Proof.
  set (rng := Ranges (fun s => if s =? 5 then 5 else 0)%R (fun s => if s =? 5 then 10 else 5)%R).
  set (U := fun i : nat => (2 / 5)%R). exists rng, U.
  assert (Hne : forall s, s < np1 2 -> (lo rng s <= hi rng s)%R) by (intros s _; cbn; destruct (s =? 5); lra).
  assert (HU : unit U) by (intros i; unfold U; lra).
  split; [exact Hne|]. split; [exact HU|]. split.
  { intros [|[|k]] Hk; [reflexivity|reflexivity|lia]. }
  intros N pm0. destruct (from_prior_eq 1 one 2 0 true rng free true true 0 false 1 N U pm0 Hne HU) as (pm2 & _ & D & E).
  cbv zeta in E. cbn [andb Nat.eqb] in E. eexists. split; [exact E|]. rewrite !put_fixed_spec. cbn [free none_fixed is_fixed]. rewrite !andb_false_r.
  destruct (sort_centers_spec 1 one 2 0 true pm2) as [_ B].
  change (slot1 2 (Centre 0)) with (slot_at 1 2 true 0 (Centre 0)). change (slot1 2 (Centre 1)) with (slot_at 1 2 true 0 (Centre 1)).
  rewrite !B by (cbn; lia). cbn [seq map].
  rewrite !D by (cbn; lia). unfold uniform_in. change (lo rng (slot_at 1 2 true 0 (Centre 0))) with 5%R. change (lo rng (slot_at 1 2 true 0 (Centre 1))) with 0%R.
  change (hi rng (slot_at 1 2 true 0 (Centre 0))) with 10%R. change (hi rng (slot_at 1 2 true 0 (Centre 1))) with 5%R. unfold U.
  replace (5 + 2 / 5 * (10 - 5))%R with 7%R by lra. replace (0 + 2 / 5 * (5 - 0))%R with 2%R by lra.
  rewrite (proj2 (pair_sorted 2 7 ltac:(lra))). split; reflexivity.
Qed.

Lemma one_line_positivity ng rng U wf c pm :
  positivity 1 one ng 0 true rng U wf (c, pm) = redraw rng U wf (slot1 ng (Centre 0)) 101 (c, pm).
Proof.
  unfold positivity. rewrite lines_iters. change (ParamSpec.nlines 1 one 0) with 1. rewrite for_snoc. cbn [for_ Nat.add].
  f_equal.
Qed.
(** With the positivity option the redrawing after the sorting breaks the order. *)
Theorem C40_positivity_refuted : exists rng U,
  (forall s, s < np1 2 -> (lo rng s <= hi rng s)%R) /\ unit U /\
  (forall k, k < 2 -> range_of rng (slot1 2 (Centre k)) = (0, 10)%R) /\
  forall N pm0, exists pm, from_prior_line 1 one 2 0 true rng free 0 true 1 (idxs1 2) N U pm0 = Ok pm /\
    (pm (slot1 2 (Centre 1)) < pm (slot1 2 (Centre 0)))%R.
Proof.
  set (rng := Ranges (fun s => 0)%R (fun s => match s with 4 | 7 => 100 | 5 | 8 => 10 | _ => 1 end)%R).
  set (U := fun i : nat => match i with 1 => 0 | 2 => 1 / 10 | 5 => 2 / 10 | 7 => 1 / 2 | 8 => 9 / 10 | _ => 0 end%R). exists rng, U.
  assert (Hne : forall s, s < np1 2 -> (lo rng s <= hi rng s)%R) by (intros s _; cbn; do 9 (destruct s as [|s]; [lra|]); lra).
  assert (HU : unit U) by (intros i; unfold U; do 9 (destruct i as [|i]; [lra|]); lra).
  split; [exact Hne|]. split; [exact HU|]. split.
  { intros [|[|k]] Hk; [reflexivity|reflexivity|lia]. }
  intros N pm0. destruct (from_prior_eq 1 one 2 0 true rng free true true 0 true 1 N U pm0 Hne HU) as (pm2 & _ & D & E).
  cbv zeta in E. cbn [andb Nat.eqb] in E. eexists. split; [exact E|]. rewrite !put_fixed_spec. cbn [free none_fixed is_fixed]. rewrite !andb_false_r.
  destruct (sort_centers_spec 1 one 2 0 true pm2) as [A B]. set (pm3 := sort_centers 1 one 2 0 true pm2) in *.
  assert (c0 : pm3 5 = 1%R /\ pm3 8 = 2%R).
  { change (pm3 5) with (pm3 (slot_at 1 2 true 0 (Centre 0))). change (pm3 8) with (pm3 (slot_at 1 2 true 0 (Centre 1))). rewrite !B by (cbn; lia). cbn [seq map].
    rewrite !D by (cbn; lia). unfold uniform_in. change (slot_at 1 2 true 0 (Centre 0)) with 5. change (slot_at 1 2 true 0 (Centre 1)) with 8. cbn [rng lo hi].
    change (U (5 - num_params_var 1 true)) with (1 / 10)%R. change (U (8 - num_params_var 1 true)) with (2 / 10)%R.
    replace (0 + 1 / 10 * (10 - 0))%R with 1%R by lra. replace (0 + 2 / 10 * (10 - 0))%R with 2%R by lra.
    rewrite (proj1 (pair_sorted 1 2 ltac:(lra))). split; reflexivity. }
  assert (a0 : pm3 4 = 0%R).
  { rewrite A; [rewrite D by (cbn; lia); unfold uniform_in; cbn [rng lo hi]; change (U (4 - num_params_var 1 true)) with 0%R; lra|].
    intros m k Hm Hk. change (ParamSpec.nlines 1 one 0) with 1 in Hm. assert (m = 0) as -> by lia. destruct k as [|[|k]]; [discriminate|discriminate|lia]. }
  rewrite one_line_positivity. change (slot1 2 (Centre 0)) with 5. change (slot1 2 (Centre 1)) with 8.
  change (num_params_line 1 one 2 0) with 7. change 101 with (S (S 99)). destruct c0 as [c0 c1].
  rewrite redraw_step by (change (5 - 1) with 4; rewrite c0, a0; lra). change (5 - 1) with 4.
  rewrite redraw_stop.
  - cbn [snd]. rewrite upd_same, !upd_other, c1 by lia. unfold uniform_in. cbn [rng lo hi]. change (U (7 + 1)) with (9 / 10)%R. lra.
  - change (5 - 1) with 4. rewrite upd_other, !upd_same by lia. unfold uniform_in. cbn [rng lo hi]. change (U 7) with (1 / 2)%R. change (U (7 + 1)) with (9 / 10)%R. lra.
Qed.

(** With the option on, in every mode: an initial vector whose centre is smaller
    than the required multiple of its width (widths are stored as logarithms). *)
Theorem C41_not_positive_refuted : forall sorts ties pr wf, (0 < wf)%R -> exists rng U,
  (forall s, s < np1 1 -> (lo rng s <= hi rng s)%R) /\ unit U /\
  forall N pm0, exists pm, from_prior 1 one 1 0 true rng free sorts ties pr true wf (idxs1 1) N U pm0 = Ok pm /\
    (pm (slot1 1 (Centre 0)) - wf * exp (pm (slot1 1 (Width 0))) < 0)%R.
Proof.
  intros sorts ties pr wf Hwf. set (rng := Ranges (fun _ => 0)%R (fun _ => 1)%R). set (U := fun _ : nat => 0%R). exists rng, U.
  assert (Hne : forall s, s < np1 1 -> (lo rng s <= hi rng s)%R) by (intros s _; cbn; lra).
  assert (HU : unit U) by (intros i; unfold U; lra).
  split; [exact Hne|]. split; [exact HU|]. intros N pm0.
  destruct (from_prior_eq 1 one 1 0 true rng free sorts ties pr true wf N U pm0 Hne HU) as (pm2 & _ & D & E).
  cbv zeta in E. cbn [Nat.eqb] in E. rewrite andb_false_r in E. eexists. split; [exact E|]. rewrite !put_fixed_spec. cbn [free none_fixed is_fixed]. rewrite !andb_false_r.
  change (slot1 1 (Centre 0)) with 5. change (slot1 1 (Width 0)) with 6.
  assert (D' : forall s, 3 <= s < 7 -> pm2 s = 0%R) by (intros s Hs; rewrite D by (cbn; lia); unfold uniform_in, U; cbn [rng lo hi]; lra).
  set (pm3 := if sorts && (pr =? 0) then sort_centers 1 one 1 0 true pm2 else pm2).
  assert (V : forall s, 3 <= s < 7 -> pm3 s = 0%R).
  { intros s Hs. unfold pm3. destruct (sorts && (pr =? 0)); [|apply D'; exact Hs]. destruct (sort_centers_spec 1 one 1 0 true pm2) as [A B].
    destruct (Nat.eq_dec s 5) as [->|Hn].
    - change 5 with (slot_at 1 1 true 0 (Centre 0)). rewrite B by (cbn; lia). cbn [seq map nth]. change (slot_at 1 1 true 0 (Centre 0)) with 5. rewrite D' by lia. reflexivity.
    - rewrite A; [apply D'; exact Hs|]. intros m k Hm Hk. change (ParamSpec.nlines 1 one 0) with 1 in Hm. assert (m = 0) as -> by lia. assert (k = 0) as -> by lia. exact Hn. }
  rewrite one_line_positivity. change (slot1 1 (Centre 0)) with 5.
  rewrite redraw_stop by (change (5 - 1) with 4; rewrite !V by lia; lra). cbn [snd]. rewrite !V by lia. rewrite exp_0. lra.
Qed.

(** ** Concrete cases *)
(** two sets, with two lines and one line, and two components *)
Notation shape := (fun i : nat => if i =? 0 then 2 else 1).
(** all slots of the three options: own, shared, tied *)
Example C38_case_own : set_idx_line_pm 2 shape 2 0 false unset 1 0 = Some 20 /\ num_params 2 shape 2 0 false = 27 /\ slot 2 shape 2 0 false 1 0 (Centre 1) = 25.
Proof. repeat split. Qed.
Example C38_case_shared : set_idx_line_pm 2 shape 2 1 false unset 1 0 = Some 6 /\ num_params 2 shape 2 1 false = 20 /\ slot 2 shape 2 1 false 0 1 (Centre 1) = 18.
Proof. repeat split. Qed.
Example C38_case_centre : check_gauss_center 2 2 false 25 = (true, 1%Z) /\ check_gauss_center 2 2 false 24 = (false, 1%Z).
Proof. split; reflexivity. Qed.
(** the centre of component 1 of the line of the second set is tied to that of line
    0 of the first *)
Example C39_case_tied : tied 2 shape 2 2 false true 25 11.
Proof. split; [reflexivity|]. split; [reflexivity|]. exists 1, 0, (Centre 1).
  split; [lia|]. split; [split; cbn; lia|]. split; [cbn; lia|]. split; [exact I|]. split; reflexivity.
Qed.
(** hypotheses of C39_line and C40_line, with option 2 and lag prior 0 *)
Definition rng_case : ranges := Ranges (fun _ => (-1)%R) (fun _ => 10%R).
Example C39_case_hypotheses : exists fx,
  set_fixed_line 2 shape 2 2 false false false 0 0 (-1) 10 (set_idx_line_pm 2 shape 2 2 false unset) = Ok fx /\
  ties_ok 2 shape 2 2 false fx /\ (forall s, s < num_params 2 shape 2 2 false -> (lo rng_case s <= hi rng_case s)%R) /\
  one_range 2 shape 2 2 false rng_case fx true /\ unit (fun _ => (1 / 2)%R) /\
  (* the second, tied, set has no free centre; the first line of the first set has *)
  is_fixed fx 25 = true /\ is_fixed fx 11 = false /\
  legal 2 shape 2 2 false [Draw [0; 11] 3 (fun _ => 0%R) 0 1] /\ proper fx [Draw [0; 11] 3 (fun _ => 0%R) 0 1].
Proof.
  destruct (set_fixed_line_spec 2 shape 2 2 false false false 0 0 (-1) 10) as (fx & E & A & B). exists fx. split; [exact E|].
  destruct (C39_own_conditions 2 shape 2 2 false (fun _ => 0%R) (fun _ => 0%R) (fun _ => (-1, 10)%R) (fun _ => (-1, 10)%R) 0 0 (fun _ => (0, 0)%R) (fun _ => (0, 0)%R) false rng_case
    false false 0 (-1) 10 fx) as [T O].
  { intros _ [|[|i]] Hi; cbn; lia. }
  { exact E. }
  assert (F11 : is_fixed fx 11 = false).
  { destruct (is_fixed fx 11) eqn:F; [|reflexivity]. destruct (B 0 (Centre 1) ltac:(cbn; lia) ltac:(cbn; lia)) as [B1 _].
    destruct (proj1 B1 F) as [G|(b & _ & _ & i & j & r & Hi & [Hi2 Hj] & Hr & _ & Hs & _)]; [exfalso; apply G; reflexivity|].
    assert (i = 1) as -> by lia. cbn in Hj. assert (j = 0) as -> by lia. change (slot_at 2 2 false 0 (Centre 1)) with 11 in Hs. cbn in Hs. lia. }
  split; [exact T|]. split; [intros s _; cbn; lra|]. split; [|split; [intros i; lra|split; [|split; [exact F11|split]]]].
  - intros m k Hm Hk Hu. split; [|reflexivity]. apply (O eq_refl eq_refl m k Hm Hk Hu).
  - apply (proj2 T 25 11 C39_case_tied).
  - intros d [<-|[]] w [<-|[<-|[]]]; cbn; lia.
  - intros d [<-|[]]. exists 11. split; [right; left; reflexivity|exact F11].
Qed.
(** hypotheses of C41_range_refuted: amplitudes between exp(-3) and exp(-1), lags
    between 0 and 1 *)
Definition rng_neg : ranges := Ranges (fun s => if s =? 4 then -3 else 0)%R (fun s => if s =? 4 then -1 else 1)%R.
Example C41_case : (forall s, s < np1 1 -> (lo rng_neg s <= hi rng_neg s)%R) /\ (hi rng_neg (slot1 1 (Amp 0)) < 0)%R /\ (0 <= lo rng_neg (slot1 1 (Centre 0)))%R.
Proof. cbn. split; [|lra]. intros s _. destruct (s =? 4); lra. Qed.
(** two sets with one and two lines, option 2 *)
Example C57_case : let more := fun i : nat => if i =? 0 then 1 else 2 in
  from_prior_line 2 more 1 2 true rng_case free 1 false 1 (set_idx_line_pm 2 more 1 2 true unset) (fun _ => 0%R) (fun _ => 0%R) (fun _ => 0%R) = UB.
Proof. intros more. apply C57_missing_line_refuted with 1; try (cbn; lia); [intros s _; cbn; lra|intros i; lra]. Qed.
Example C56_case : get_idx_set 2 (set_idx_line_pm 2 shape 2 0 false unset) 15 = Ok 0 /\ get_idx_set 2 (set_idx_line_pm 2 shape 2 0 false unset) 25 = Ok 1 /\
  get_idx_set 2 (set_idx_line_pm 2 shape 2 1 false unset) 18 = Ok 1 (* a parameter of the second line, which the second set does not have *).
Proof. repeat split. Qed.
(** hypotheses of C58: one set, one line, three components, lags from -1 *)
Example C58_case : exists fx, set_fixed_vmap 1 one 3 0 true true (idxs1 3) = Ok fx /\ (lo rng_case (slot1 3 (Centre 2)) < 0)%R.
Proof. eexists. split; [reflexivity|]. cbn. lra. Qed.

Print Assumptions C38_only_lines.
Print Assumptions C38_own_slot.
Print Assumptions C38_tile.
Print Assumptions C38_shared.
Print Assumptions C38_variability.
Print Assumptions C38_centre_test.
Print Assumptions C38_ranges.
Print Assumptions C39_line.
Print Assumptions C40_line.
Print Assumptions C39_mmap.
Print Assumptions C40_mmap.
Print Assumptions C39_vmap.
Print Assumptions C39_pmap.
Print Assumptions C39_con.
Print Assumptions C39_own_fixed.
Print Assumptions C39_own_conditions.
Print Assumptions C39_loaded_ranges_refuted.
Print Assumptions C40_positivity_refuted.
Print Assumptions C41_relation_imposed.
Print Assumptions C41_range_refuted.
Print Assumptions C41_not_positive_refuted.
Print Assumptions C56_set_of_parameter.
Print Assumptions C56_shared_refuted.
Print Assumptions C57_missing_line_refuted.
Print Assumptions C58_vmap_abort_refuted.
