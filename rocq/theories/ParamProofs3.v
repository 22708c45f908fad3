(** Drawing from the prior and perturbing keep the parameters in their ranges and
    the centres in order. *)
From Coq Require Import Reals ZArith List Bool Arith Lia Lra Permutation Sorted.
From Verif Require Import CPrelude ListLemmas SemisepModel SemisepProofs CovProofs SortModel SortProofs LogXModel LogXProofs ParamModel ParamSpec ParamProofs ParamProofs2.
Import ListNotations.
Open Scope nat_scope.

Lemma wrap_in x a b : (a <= b)%R -> exists v, dnest_wrap x a b = Ok v /\ (a <= v <= b)%R.
Proof.
  intros H. destruct (Rlt_dec a b) as [G|G].
  - destruct (wrap_spec x a b G) as (v & E & Hv & _). exists v. split; [exact E|lra].
  - assert (b = a) as -> by lra. exists a. split; [apply wrap_empty|lra].
Qed.

Section Keep.
Variable nset : nat.
Variable nlset : nat -> nat.
Variable ng : nat.
Variable uniform : nat.
Variable uniform_var : bool.
Notation nvar := (num_params_var nset uniform_var).
Notation per := (per_line ng).
Notation npl := (num_params_line nset nlset ng uniform).
Notation np := (num_params nset nlset ng uniform uniform_var).
Notation nlines := (nlines nset nlset uniform).
Notation slot_at := (slot_at nset ng uniform_var).
Notation slot := (slot nset nlset ng uniform uniform_var).
Notation tied := (tied nset nlset ng uniform uniform_var).
Notation respects := (respects nset nlset ng uniform uniform_var).
Notation ordered := (ordered nset nlset ng uniform uniform_var).
Notation idxs := (set_idx_line_pm nset nlset ng uniform uniform_var unset).
Variable ties : bool.
Variable rng : ranges.
Variable fx : fixed.
Hypothesis nonempty : forall s, s < np -> (lo rng s <= hi rng s)%R.
Hypothesis Hfits : ties = true -> uniform = 2 -> fits nset nlset.

Definition untied (s : nat) : Prop := ~ exists b, tied ties s b.
Definition in_place (pm : arr) (s : nat) : Prop := if is_fixed fx s then pm s = fix_val fx s else (lo rng s <= pm s <= hi rng s)%R.
Definition semi_range (pm : arr) : Prop := forall s, s < np -> untied s -> in_place pm s.
Definition semi_order (pm : arr) : Prop := forall m k, m < nlines -> k + 1 < ng -> untied (slot_at m (Centre k)) ->
  (pm (slot_at m (Centre k)) <= pm (slot_at m (Centre (k + 1))))%R.

Lemma untied_line m r r' : role_ok ng r -> role_ok ng r' -> ties_role r -> ties_role r' -> untied (slot_at m r) -> untied (slot_at m r').
Proof.
  intros Hr Hr' Ht Ht' Hu (b & E & Hu2 & i & j & r2 & Hi & Hl & Hr2 & Ht2 & Es & Eb). apply Hu.
  apply slot_at_inj in Es; auto. destruct Es as [-> ->]. exists (slot 0 j r). split; [exact E|]. split; [exact Hu2|].
  exists i, j, r. auto 8.
Qed.

Lemma close pm : semi_range pm -> exists pm', (if ties && (uniform =? 2) then set_center_width nset nlset ng idxs pm else Ok pm) = Ok pm' /\
  respects ties rng fx pm' /\ (semi_order pm -> ordered pm').
Proof.
  intros Hs. destruct (ties && (uniform =? 2)) eqn:E.
  - apply andb_true_iff in E. destruct E as [Et E]. apply Nat.eqb_eq in E. assert (Hfit := Hfits Et E).
    destruct (center_width_spec nset nlset ng uniform uniform_var pm E Hfit) as (pm' & E' & A & B). rewrite <- Et in A, B.
    exists pm'. split; [exact E'|]. split.
    + intros s Hsn. destruct (tied_dec nset nlset ng uniform uniform_var ties s) as [(b & Hb)|Hn].
      * left. exists b. split; [exact Hb|]. rewrite (A s b Hb). symmetry. apply B. intros (b' & Hb').
        revert Hb'. apply tied_not_source with s; auto.
      * right. split; [exact Hn|]. rewrite (B s Hn). apply Hs; auto.
    + intros Ho m k Hm Hk. destruct (tied_dec nset nlset ng uniform uniform_var ties (slot_at m (Centre k))) as [(b & Hb)|Hn].
      * assert (Hb0 := Hb). destruct Hb as (_ & Hu & i & j & r & Hi & Hl & Hr & Ht & Es & Eb).
        apply slot_at_inj in Es; [|cbn; lia|exact Hr]. destruct Es as [-> <-].
        assert (Hb1 : tied ties (slot_at (line_no nlset uniform i j) (Centre (k + 1))) (slot 0 j (Centre (k + 1)))).
        { split; [exact Et|]. split; [exact E|]. exists i, j, (Centre (k + 1)). cbn [role_ok ties_role]. auto 9. }
        rewrite (A _ _ Hb0), (A _ _ Hb1). subst b. apply Ho; [|exact Hk|].
        -- apply line_no_lt; [destruct Hl; lia|]. destruct Hl as [Hn Hj]. specialize (Hfit i Hn). lia.
        -- intros (b' & Hb'). revert Hb'. apply tied_not_source with (slot_at (line_no nlset uniform i j) (Centre k)); auto.
      * rewrite (B _ Hn), (B (slot_at m (Centre (k + 1)))); [apply Ho; auto|].
        apply (untied_line m (Centre k)); cbn; auto; lia.
  - exists pm. split; [reflexivity|].
    assert (no : forall s, untied s).
    { intros s (b & H1 & H2 & _). rewrite H1, H2 in E. discriminate. }
    split; [intros s Hsn; right; split; [apply no|apply Hs; auto]|].
    intros Ho m k Hm Hk. apply Ho; auto.
Qed.
Lemma open_range pm : respects ties rng fx pm -> semi_range pm.
Proof. intros H s Hs Hu. destruct (H s Hs) as [(b & Hb & _)|[_ G]]; [exfalso; apply Hu; eauto|exact G]. Qed.
Lemma open_order pm : ordered pm -> semi_order pm.
Proof. intros H m k Hm Hk _. apply H; auto. Qed.

(** centres of one line share their range and none is fixed, tied ones apart *)
Definition centres_alike : Prop := forall m k, m < nlines -> k < ng -> untied (slot_at m (Centre k)) ->
  is_fixed fx (slot_at m (Centre k)) = false /\
  lo rng (slot_at m (Centre k)) = lo rng (slot_at m (Centre 0)) /\ hi rng (slot_at m (Centre k)) = hi rng (slot_at m (Centre 0)).

(** ** Drawing *)
Definition unit (u : nat -> R) : Prop := forall i, (0 <= u i <= 1)%R.
Lemma uniform_in_range i u : (0 <= u <= 1)%R -> (lo rng i <= hi rng i)%R -> (lo rng i <= uniform_in rng i u <= hi rng i)%R.
Proof. intros Hu Hr. unfold uniform_in. nra. Qed.
Lemma draw_var N pm : exists pm', ofor 0 nvar (fun i pm =>
    v <- dnest_wrap (N i * (hi rng i - lo rng i))%R (lo rng i) (hi rng i) ;; Ok (upd pm i v)) pm = Ok pm' /\
  (forall i, i < nvar -> (lo rng i <= pm' i <= hi rng i)%R).
Proof using nonempty. clear Hfits.
  assert (step : forall i (q : arr), i < nvar -> exists v, (v <- dnest_wrap (N i * (hi rng i - lo rng i))%R (lo rng i) (hi rng i) ;; Ok (upd q i v)) = Ok (upd q i v)
      /\ (lo rng i <= v <= hi rng i)%R).
  { intros i q Hi. destruct (wrap_in (N i * (hi rng i - lo rng i))%R (lo rng i) (hi rng i)) as (v & E & Hv).
    { apply nonempty. unfold num_params. lia. }
    exists v. rewrite E. auto. }
  assert (G : forall n pm, n <= nvar -> exists pm', ofor (nvar - n) n (fun i pm =>
    v <- dnest_wrap (N i * (hi rng i - lo rng i))%R (lo rng i) (hi rng i) ;; Ok (upd pm i v)) pm = Ok pm' /\
     (forall i, i < nvar - n -> pm' i = pm i) /\ (forall i, nvar - n <= i < nvar -> (lo rng i <= pm' i <= hi rng i)%R)).
  { induction n as [|n IH]; intros q Hn.
    - exists q. split; [reflexivity|]. split; [reflexivity|lia].
    - unfold ofor. cbn [seq foldM]. destruct (step (nvar - S n) q ltac:(lia)) as (v & E & Hv). rewrite E. cbn [bind].
      destruct (IH (upd q (nvar - S n) v) ltac:(lia)) as (q' & E' & A & B). unfold ofor in E'.
      replace (S (nvar - S n)) with (nvar - n) by lia. exists q'. split; [exact E'|]. split.
      + intros i Hi. rewrite A by lia. apply upd_other. lia.
      + intros i Hi. destruct (Nat.eq_dec i (nvar - S n)) as [->|]; [|apply B; lia]. rewrite A by lia. rewrite upd_same. exact Hv. }
  destruct (G nvar pm (le_n _)) as (pm' & E & _ & B). rewrite Nat.sub_diag in *. exists pm'. split; [exact E|]. intros i Hi. apply B. lia.
Qed.
Lemma draw_line U pm n s (b := nvar) : for_ b n (fun i pm => upd pm i (uniform_in rng i (U (i - b)%nat))) pm s
  = if (b <=? s) && (s <? b + n) then uniform_in rng s (U (s - b)) else pm s.
Proof.
  clear Hfits nonempty. clearbody b. induction n as [|n IH].
  - cbn [for_ seq fold_left]. destruct (Nat.leb_spec b s), (Nat.ltb_spec s (b + 0)); try reflexivity. lia.
  - rewrite for_snoc. destruct (Nat.eq_dec s (b + n)) as [->|Hs].
    + rewrite upd_same. replace (b <=? b + n) with true by (symmetry; apply Nat.leb_le; lia).
      replace (b + n <? b + S n) with true by (symmetry; apply Nat.ltb_lt; lia). reflexivity.
    + rewrite upd_other by lia. rewrite IH. replace (s <? b + S n) with (s <? b + n); [reflexivity|].
      destruct (Nat.ltb_spec s (b + n)), (Nat.ltb_spec s (b + S n)); try reflexivity; lia.
Qed.
Definition all_in (pm : arr) : Prop := forall s, s < np -> (lo rng s <= pm s <= hi rng s)%R.
Lemma draw_all N U pm : unit U -> exists pm1, ofor 0 nvar (fun i pm =>
    v <- dnest_wrap (N i * (hi rng i - lo rng i))%R (lo rng i) (hi rng i) ;; Ok (upd pm i v)) pm = Ok pm1 /\
  all_in (for_ nvar npl (fun i pm => upd pm i (uniform_in rng i (U (i - nvar)%nat))) pm1).
Proof using nonempty. clear Hfits.
  intros HU. destruct (draw_var N pm) as (pm1 & E & Hv). exists pm1. split; [exact E|].
  intros s Hs. rewrite draw_line. unfold num_params in Hs. destruct (Nat.leb_spec nvar s).
  - replace (s <? nvar + npl) with true by (symmetry; apply Nat.ltb_lt; lia). cbn [andb]. apply uniform_in_range; [apply HU|].
    apply nonempty. unfold num_params. lia.
  - cbn [andb]. apply Hv. assumption.
Qed.

Lemma sort_in pm : centres_alike -> all_in pm -> forall s, s < np -> untied s ->
  (lo rng s <= sort_centers nset nlset ng uniform uniform_var pm s <= hi rng s)%R.
Proof.
  intros Hc Ha s Hs Hu. destruct (sort_centers_spec nset nlset ng uniform uniform_var pm) as [A B].
  assert (G : s < nvar \/ (exists m k, m < nlines /\ k < ng /\ s = slot_at m (Centre k)) \/ exists m r, m < nlines /\ role_ok ng r /\ s = slot_at m r /\ is_centre r = false).
  { destruct (slot_cases nset nlset ng uniform uniform_var s Hs) as [H|(m & r & Hm & Hr & ->)]; [left; exact H|right].
    destruct r as [|k|k|k]; [right|right|left|right]; eauto 8. }
  destruct G as [H|[(m & k & Hm & Hk & ->)|(m & r & Hm & Hr & -> & Hnc)]].
  - rewrite A; [apply Ha; exact Hs|]. intros m k Hm Hk E. pose proof (slot_at_lt nset nlset ng uniform uniform_var m (Centre k) Hm Hk). lia.
  - rewrite B by assumption. set (l := map _ _). assert (Hin : In (nth k (msort mica_cmpR l) 0%R) l).
    { apply (Permutation_in _ (proj1 (sortR_spec l))). apply nth_In. rewrite (Permutation_length (proj1 (sortR_spec l))).
      unfold l. rewrite map_length, seq_length. exact Hk. }
    unfold l in Hin at 2. apply in_map_iff in Hin. destruct Hin as (j & E & Hj). apply in_seq in Hj. rewrite <- E.
    destruct (Hc m k Hm Hk Hu) as (_ & L1 & L2). destruct (Hc m j Hm ltac:(lia)) as (_ & L3 & L4).
    { apply (untied_line m (Centre k)); cbn; auto; lia. }
    pose proof (Ha (slot_at m (Centre j))) as G. rewrite L3, L4 in G. rewrite L1, L2. apply G. apply slot_at_lt; [exact Hm|cbn; lia].
  - rewrite A; [apply Ha; exact Hs|]. intros m' k' Hm' Hk' E. apply slot_at_inj in E; [|exact Hr|exact Hk']. destruct E as [_ ->]. discriminate.
Qed.
Lemma sort_ordered pm m k : m < nlines -> k + 1 < ng ->
  (sort_centers nset nlset ng uniform uniform_var pm (slot_at m (Centre k)) <= sort_centers nset nlset ng uniform uniform_var pm (slot_at m (Centre (k + 1))))%R.
Proof.
  intros Hm Hk. destruct (sort_centers_spec nset nlset ng uniform uniform_var pm) as [_ B].
  rewrite !B by lia. set (l := map _ _). apply sorted_nth; [apply sortR_spec|lia|].
  rewrite (Permutation_length (proj1 (sortR_spec l))). unfold l. rewrite map_length, seq_length. exact Hk.
Qed.
Lemma fixed_range pm : (forall s, s < np -> untied s -> (lo rng s <= pm s <= hi rng s)%R) -> semi_range (put_fixed nset nlset ng uniform uniform_var fx pm).
Proof.
  intros H s Hs Hu. unfold in_place. rewrite put_fixed_spec. assert (Hs' := Hs). apply Nat.ltb_lt in Hs'. rewrite Hs'. cbn [andb].
  destruct (is_fixed fx s); [reflexivity|]. apply H; assumption.
Qed.

Theorem from_prior_keeps sorts pr wf N U pm : unit U -> (sorts = true -> pr = 0 -> centres_alike) ->
  exists pm', from_prior nset nlset ng uniform uniform_var rng fx sorts ties pr false wf idxs N U pm = Ok pm' /\
    respects ties rng fx pm' /\ (sorts = true -> pr = 0 -> ordered pm').
Proof.
  intros HU Hc. unfold from_prior. destruct (draw_all N U pm HU) as (pm1 & E & Ha). rewrite E. cbn [bind]. cbv zeta.
  set (pm2 := for_ nvar npl _ pm1) in *. destruct (sorts && (pr =? 0)) eqn:S.
  - apply andb_true_iff in S. destruct S as [S1 S2]. apply Nat.eqb_eq in S2. specialize (Hc S1 S2).
    destruct (close (put_fixed nset nlset ng uniform uniform_var fx (sort_centers nset nlset ng uniform uniform_var pm2))) as (pm' & E' & A & B).
    { apply fixed_range. apply sort_in; assumption. }
    exists pm'. split; [exact E'|]. split; [exact A|]. intros _ _. apply B. intros m k Hm Hk Hu.
    destruct (Hc m k Hm ltac:(lia) Hu) as (F1 & _). destruct (Hc m (k + 1) Hm Hk) as (F2 & _).
    { apply (untied_line m (Centre k)); cbn; auto; lia. }
    rewrite !put_fixed_spec, F1, F2, !andb_false_r. apply sort_ordered; assumption.
  - destruct (close (put_fixed nset nlset ng uniform uniform_var fx pm2)) as (pm' & E' & A & B).
    { apply fixed_range. intros s Hs _. apply Ha. exact Hs. }
    exists pm'. split; [exact E'|]. split; [exact A|]. intros -> ->. discriminate.
Qed.

(** ** Perturbing *)
Definition tied_fixed : Prop := forall s b, tied ties s b -> is_fixed fx s = true.
Lemma choose_spec W : (forall w, In w W -> w < np) ->
  match choose_which fx W with Ok w => w < np /\ is_fixed fx w = false | Stuck => forall w, In w W -> is_fixed fx w = true | _ => False end.
Proof.
  induction W as [|w W IH]; intros H; cbn [choose_which]; [intros w []|].
  destruct (is_fixed fx w) eqn:E.
  - specialize (IH (fun v Hv => H v (or_intror Hv))). destruct (choose_which fx W); auto.
    intros v [<-|Hv]; auto.
  - split; [apply H; left; reflexivity|exact E].
Qed.
Lemma free_untied w : tied_fixed -> is_fixed fx w = false -> untied w.
Proof. intros H E (b & Hb). apply H in Hb. congruence. Qed.
Lemma upd_keeps pm w v : semi_range pm -> is_fixed fx w = false -> (lo rng w <= v <= hi rng w)%R -> semi_range (upd pm w v).
Proof.
  intros H E Hv s Hs Hu. unfold in_place. destruct (Nat.eq_dec s w) as [->|Hn].
  - rewrite E, upd_same. exact Hv.
  - specialize (H s Hs Hu). unfold in_place in H. rewrite upd_other by exact Hn. exact H.
Qed.
Lemma upd_order pm w v : semi_order pm -> (forall m k, m < nlines -> k < ng -> w <> slot_at m (Centre k)) -> semi_order (upd pm w v).
Proof. intros H Hn m k Hm Hk Hu. rewrite !upd_other; [apply H; auto| |]; intros E; eapply Hn; [| |symmetry; exact E| | |symmetry; exact E]; eauto; lia. Qed.

Variables var_param var_param_std : arr.
Variables flag_lag_posivity flag_gap : bool.
Variables width_factor lag_factor year_day : R.
Variables gap_center gap_width : arr.
Hypothesis gap_lines : flag_gap = true -> forall i, i < nset -> 0 < nlset i.
Notation pens := (penalties nset nlset ng uniform uniform_var flag_lag_posivity flag_gap width_factor lag_factor year_day gap_center gap_width idxs).

Lemma rd_ok pm i : i < np -> rd np pm i = Ok (pm i).
Proof. intros H. unfold rd. apply Nat.ltb_lt in H. rewrite H. reflexivity. Qed.
Lemma idx_set_ok n w : n <= nset -> (forall i, i < nset -> 0 < nlset i) -> exists i, get_idx_set_from idxs n w = Ok i.
Proof.
  intros Hn Hl. induction n as [|n IH]; cbn [get_idx_set_from]; [eauto|].
  rewrite idx_line by (split; [lia|apply Hl; lia]). cbn [bind]. destruct (_ <=? _); [eauto|]. apply IH. lia.
Qed.
Lemma penalties_ok pm w : w < np -> nvar <= w -> exists p, pens pm w = Ok p.
Proof.
  intros Hw Hv. destruct (slot_cases nset nlset ng uniform uniform_var w Hw) as [H|(m & r & Hm & Hr & ->)]; [lia|].
  assert (next : forall k, r = Centre k -> slot_at m r + 1 < np).
  { intros k ->. pose proof (slot_at_lt nset nlset ng uniform uniform_var m (Width k) Hm Hr). unfold ParamSpec.slot_at in *. cbn [offset] in *. lia. }
  assert (P : exists p, check_positivity nset nlset ng uniform uniform_var width_factor pm (slot_at m r) = Ok p).
  { unfold check_positivity. rewrite (idx_param nset ng uniform_var m r Hr). destruct r as [|k|k|k]; cbn [Z.eqb Pos.eqb]; eauto.
    - rewrite (rd_ok pm _ Hw), (rd_ok pm _ (next k eq_refl)). cbn [bind]. eauto.
    - rewrite (rd_ok pm _ Hw), rd_ok by lia. cbn [bind]. eauto. }
  assert (Gp : flag_gap = true -> exists p, check_gap nset nlset ng uniform uniform_var lag_factor year_day gap_center gap_width idxs pm (slot_at m r) = Ok p).
  { intros Hg. unfold check_gap. rewrite (idx_param nset ng uniform_var m r Hr).
    unfold get_idx_set. destruct (idx_set_ok nset (slot_at m r) (le_n _) (gap_lines Hg)) as (i & ->). cbn [bind].
    destruct r as [|k|k|k]; cbn [Z.eqb Pos.eqb]; eauto.
    - rewrite (rd_ok pm _ Hw), (rd_ok pm _ (next k eq_refl)). cbn [bind]. eauto.
    - rewrite (rd_ok pm _ Hw), rd_ok by lia. cbn [bind]. eauto. }
  unfold penalties. destruct P as (p & P). destruct flag_lag_posivity; [rewrite P|]; cbn [bind].
  - destruct flag_gap; [destruct (Gp eq_refl) as (q & ->)|]; cbn [bind]; eauto.
  - destruct flag_gap; [destruct (Gp eq_refl) as (q & ->)|]; cbn [bind]; eauto.
Qed.

Theorem perturb1_keeps W h limits lev size pm : tied_fixed -> (forall w, In w W -> w < np) -> respects ties rng fx pm ->
  match perturb_prior1 nset nlset ng uniform uniform_var rng fx var_param var_param_std flag_lag_posivity flag_gap width_factor lag_factor year_day gap_center gap_width idxs ties W h limits lev size pm with
  | Ok (pm', _) => respects ties rng fx pm'
  | Stuck => forall w, In w W -> is_fixed fx w = true
  | _ => False
  end.
Proof.
  intros Ht HW Hp. unfold perturb_prior1. pose proof (choose_spec W HW) as C.
  destruct (choose_which fx W) as [w| | |]; try contradiction; [|exact C]. destruct C as [Hw Hfree]. cbn [bind]. cbv zeta.
  rewrite rd_ok by exact Hw. cbn [bind].
  match goal with |- context [dnest_wrap ?x ?a ?b] => destruct (wrap_in x a b (nonempty w Hw)) as (v & E & Hv); rewrite E end. cbn [bind].
  destruct (close (upd pm w v) (upd_keeps pm w v (open_range pm Hp) Hfree Hv)) as (pm' & E' & A & _).
  destruct (Nat.ltb_spec w nvar) as [L|L].
  - cbn [bind]. rewrite E'. cbn [bind]. exact A.
  - destruct (penalties_ok (upd pm w v) w Hw L) as (p & ->). cbn [bind]. rewrite E'. cbn [bind]. exact A.
Qed.

Lemma centre_next m k : slot_at m (Centre k) + 3 = slot_at m (Centre (k + 1)).
Proof. unfold ParamSpec.slot_at. cbn [offset]. lia. Qed.
Lemma centre_prev m k : slot_at m (Centre (k + 1)) - 3 = slot_at m (Centre k).
Proof. unfold ParamSpec.slot_at. cbn [offset]. lia. Qed.

Theorem perturb0_keeps early W h limits lev size pm : 2 <= ng -> tied_fixed -> centres_alike -> (forall w, In w W -> w < np) ->
  respects ties rng fx pm -> ordered pm ->
  match perturb_prior0 nset nlset ng uniform uniform_var rng fx var_param var_param_std flag_lag_posivity flag_gap width_factor lag_factor year_day gap_center gap_width idxs ties early W h limits lev size pm with
  | Ok (pm', _) => respects ties rng fx pm' /\ ordered pm'
  | Stuck => forall w, In w W -> is_fixed fx w = true
  | _ => False
  end.
Proof.
  intros Hng Ht Hc HW Hp Ho. unfold perturb_prior0. pose proof (choose_spec W HW) as C.
  destruct (choose_which fx W) as [w| | |]; try contradiction; [|exact C]. destruct C as [Hw Hfree]. cbn [bind]. cbv zeta.
  rewrite rd_ok by exact Hw. cbn [bind]. set (x := (pm w + h * _)%R). clearbody x.
  assert (Hu := free_untied w Ht Hfree). assert (Hsr := open_range pm Hp). assert (Hso := open_order pm Ho).
  assert (plain : forall v, (lo rng w <= v <= hi rng w)%R -> (forall m k, m < nlines -> k < ng -> w <> slot_at m (Centre k)) ->
    exists pm', (if ties && (uniform =? 2) then set_center_width nset nlset ng idxs (upd pm w v) else Ok (upd pm w v)) = Ok pm' /\ respects ties rng fx pm' /\ ordered pm').
  { intros v Hv Hnc. destruct (close (upd pm w v) (upd_keeps pm w v Hsr Hfree Hv)) as (pm' & E' & A & B).
    exists pm'. split; [exact E'|]. split; [exact A|]. apply B. apply upd_order; assumption. }
  destruct (Nat.ltb_spec w nvar) as [L|L].
  - destruct (wrap_in x _ _ (nonempty w Hw)) as (v & E & Hv). rewrite E. cbn [bind].
    destruct (plain v Hv) as (pm' & E' & A).
    { intros m k Hm Hk Es. pose proof (slot_at_lt nset nlset ng uniform uniform_var m (Centre k) Hm Hk). lia. }
    rewrite E'. cbn [bind]. exact A.
  - destruct (slot_cases nset nlset ng uniform uniform_var w Hw) as [?|(m & r & Hm & Hr & Es)]; [lia|].
    destruct (check_centre nset ng uniform_var m r Hr) as [C1 C2]. rewrite <- Es in C1, C2.
    destruct (check_gauss_center nset ng uniform_var w) as [ic igau]. cbn [fst snd] in C1, C2. subst ic.
    assert (wrapped : exists v, (if is_centre r then
                  if (igau =? 0)%Z then
                    b <- rd np pm (w + 3) ;; dnest_wrap x (lo rng w) b
                  else if (igau <? Z.of_nat ng - 1)%Z then
                    a <- rd np pm (w - 3) ;; b <- rd np pm (w + 3) ;; dnest_wrap x a b
                  else a <- rd np pm (w - 3) ;; dnest_wrap x a (hi rng w)
                else dnest_wrap x (lo rng w) (hi rng w)) = Ok v /\
       (lo rng w <= v <= hi rng w)%R /\ semi_order (upd pm w v)).
    { destruct r as [|k|k|k]; cbn [is_centre].
      1,2,4: destruct (wrap_in x _ _ (nonempty w Hw)) as (v & E & Hv); exists v; (split; [exact E|]); (split; [exact Hv|]);
        apply upd_order; [exact Hso|]; intros m' k' Hm' Hk' E'; rewrite Es in E'; apply slot_at_inj in E'; [|exact Hr|exact Hk']; destruct E' as [_ ?]; discriminate.
      specialize (C2 k eq_refl). subst igau. cbn [role_ok] in Hr.
      assert (cin : forall k', k' < ng -> (lo rng w <= pm (slot_at m (Centre k')) <= hi rng w)%R).
      { intros k' Hk'. assert (U' : untied (slot_at m (Centre k'))).
        { apply (untied_line m (Centre k)); cbn; auto. rewrite <- Es. exact Hu. }
        destruct (Hc m k Hm Hr) as (_ & L1 & L2); [rewrite <- Es; exact Hu|].
        destruct (Hc m k' Hm Hk' U') as (F & L3 & L4).
        assert (G := Hsr (slot_at m (Centre k')) (proj2 (slot_at_lt nset nlset ng uniform uniform_var m (Centre k') Hm Hk')) U').
        unfold in_place in G. rewrite F, L3, L4 in G. rewrite Es, L1, L2. exact G. }
      (* the order after moving centre k between its neighbours *)
      assert (mono : forall v, (0 < k -> (pm (slot_at m (Centre (k - 1))) <= v)%R) -> (k + 1 < ng -> (v <= pm (slot_at m (Centre (k + 1))))%R) -> semi_order (upd pm w v)).
      { intros v Hl Hh m' k' Hm' Hk' Hu'. rewrite Es.
        destruct (Nat.eq_dec m' m) as [->|Hmm].
        - destruct (Nat.eq_dec k' k) as [->|Hkk].
          + rewrite upd_same. rewrite upd_other; [apply Hh; exact Hk'|]. unfold ParamSpec.slot_at; cbn [offset]; lia.
          + rewrite upd_other by (unfold ParamSpec.slot_at; cbn [offset]; lia).
            destruct (Nat.eq_dec (k' + 1) k) as [<-|Hk2].
            * rewrite upd_same. specialize (Hl ltac:(lia)). replace (k' + 1 - 1) with k' in Hl by lia. exact Hl.
            * rewrite upd_other by (unfold ParamSpec.slot_at; cbn [offset]; lia). apply Hso; assumption.
        - rewrite !upd_other; [apply Hso; assumption| |]; intros E; apply slot_at_inj in E; cbn [role_ok]; try lia. }
      destruct (Z.eqb_spec (Z.of_nat k) 0) as [K0|K0].
      - assert (k = 0) by lia. subst k. assert (next : w + 3 = slot_at m (Centre 1)) by (rewrite Es; apply (centre_next m 0)). rewrite next.
        rewrite rd_ok by (apply slot_at_lt; [exact Hm|cbn; lia]). cbn [bind].
        destruct (wrap_in x (lo rng w) (pm (slot_at m (Centre 1))) (proj1 (cin 1 ltac:(lia)))) as (v & E & Hv).
        exists v. split; [exact E|]. pose proof (cin 1 ltac:(lia)). split; [lra|]. apply mono; [lia|]. intros _. cbn [Nat.add]. lra.
      - assert (prev : w - 3 = slot_at m (Centre (k - 1))) by (rewrite Es; unfold ParamSpec.slot_at; cbn [offset]; lia).
        assert (Hp1 := cin (k - 1) ltac:(lia)). assert (P1 : rd np pm (w - 3) = Ok (pm (slot_at m (Centre (k - 1))))).
        { rewrite prev. apply rd_ok. apply slot_at_lt; [exact Hm|cbn; lia]. }
        destruct (Z.ltb_spec (Z.of_nat k) (Z.of_nat ng - 1)) as [K1|K1].
        + assert (next : w + 3 = slot_at m (Centre (k + 1))) by (rewrite Es; apply centre_next).
          assert (Hn1 := cin (k + 1) ltac:(lia)). rewrite P1. cbn [bind]. rewrite next, rd_ok by (apply slot_at_lt; [exact Hm|cbn; lia]). cbn [bind].
          destruct (wrap_in x (pm (slot_at m (Centre (k - 1)))) (pm (slot_at m (Centre (k + 1))))) as (v & E & Hv).
          { apply Rle_trans with (pm (slot_at m (Centre k))).
            - pose proof (Ho m (k - 1) Hm ltac:(lia)) as G. replace (k - 1 + 1) with k in G by lia. exact G.
            - apply Ho; [exact Hm|lia]. }
          exists v. split; [exact E|]. split; [lra|]. apply mono; intros _; lra.
        + rewrite P1. cbn [bind]. destruct (wrap_in x (pm (slot_at m (Centre (k - 1)))) (hi rng w) (proj2 Hp1)) as (v & E & Hv).
          exists v. split; [exact E|]. split; [lra|]. apply mono; [intros _; lra|lia]. }
    destruct wrapped as (v & E & Hv & Hov). rewrite E. cbn [bind].
    destruct (penalties_ok (upd pm w v) w Hw L) as (p & ->). cbn [bind].
    destruct (close (upd pm w v) (upd_keeps pm w v Hsr Hfree Hv)) as (pm' & E' & A & B). rewrite E'. cbn [bind]. auto.
Qed.
End Keep.
