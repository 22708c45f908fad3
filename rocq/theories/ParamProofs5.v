(** Positivity at initialisation, fixed parameters of the virtual-map mode, the set
    a parameter belongs to, and the table of indices read beyond what was written. *)
From Coq Require Import Reals ZArith List Bool Arith Lia Lra Permutation.
From Verif Require Import CPrelude ListLemmas SemisepModel SemisepProofs CovProofs SortModel SortProofs LogXModel LogXProofs ParamModel ParamSpec ParamProofs ParamProofs2 ParamProofs3 ParamProofs4.
Import ListNotations.
Open Scope nat_scope.

Lemma ofor_UB {St} (body : nat -> St -> outcome St) lo n i :
  lo <= i < lo + n -> (forall k s, lo <= k < lo + n -> body k s = UB \/ exists s', body k s = Ok s') -> (forall s, body i s = UB) ->
  forall s, ofor lo n body s = UB.
Proof.
  unfold ofor. revert lo. induction n as [|n IH]; intros b Hi Hok HU s; [lia|]. cbn [seq foldM].
  destruct (Nat.eq_dec i b) as [->|Hne]; [rewrite HU; reflexivity|].
  destruct (Hok b s ltac:(lia)) as [->|(s' & ->)]; [reflexivity|]. cbn [bind]. apply IH; [lia| |exact HU]. intros k t Hk. apply Hok. lia.
Qed.
Lemma ofor_UB_or_ok {St} (body : nat -> St -> outcome St) lo n :
  (forall k s, lo <= k < lo + n -> body k s = UB \/ exists s', body k s = Ok s') -> forall s, ofor lo n body s = UB \/ exists s', ofor lo n body s = Ok s'.
Proof.
  unfold ofor. revert lo. induction n as [|n IH]; intros b Hok s; [right; exists s; reflexivity|]. cbn [seq foldM].
  destruct (Hok b s ltac:(lia)) as [->|(s' & ->)]; [left; reflexivity|]. cbn [bind]. apply IH. intros k t Hk. apply Hok. lia.
Qed.

Section More.
Variable nset : nat.
Variable nlset : nat -> nat.
Variable ng : nat.
Variable uniform : nat.
Variable uniform_var : bool.
Notation nvar := (num_params_var nset uniform_var).
Notation per := (per_line ng).
Notation npl := (num_params_line nset nlset ng uniform).
Notation np := (num_params nset nlset ng uniform uniform_var).
Notation nlines := (nlines nset nlset uniform).
Notation slot_at := (slot_at nset ng uniform_var).
Notation slot := (slot nset nlset ng uniform uniform_var).
Notation tied := (tied nset nlset ng uniform uniform_var).
Notation idxs := (set_idx_line_pm nset nlset ng uniform uniform_var unset).

(** ** Positivity *)
Section Pos.
Variable rng : ranges.
Variable U : nat -> R.
Variable wf : R.
Hypothesis Hwf : (0 < wf)%R.
Lemma redraw_spec ic : forall n x, 1 <= ic -> 0 < n ->
  (forall s, s <> ic -> s <> ic - 1 -> snd (redraw rng U wf ic n x) s = snd x s) /\
  (0 <= snd (redraw rng U wf ic n x) (ic - 1)%nat - wf * snd (redraw rng U wf ic n x) ic)%R /\
  (snd (redraw rng U wf ic n x) (ic - 1) = snd x (ic - 1) \/ exists k, snd (redraw rng U wf ic n x) (ic - 1) = uniform_in rng (ic - 1) (U k)) /\
  (snd (redraw rng U wf ic n x) ic = snd x ic \/ (exists k, snd (redraw rng U wf ic n x) ic = uniform_in rng ic (U k)) \/
   snd (redraw rng U wf ic n x) ic = (snd (redraw rng U wf ic n x) (ic - 1)%nat / wf)%R).
Proof.
  induction n as [|n IH]; intros [c pm] Hic Hn; [lia|]. cbn [redraw].
  destruct (Rlt_dec (pm (ic - 1)%nat - wf * pm ic)%R 0) as [L|L].
  - set (q := upd (upd pm (ic - 1) (uniform_in rng (ic - 1) (U c))) ic (uniform_in rng ic (U (c + 1)))).
    assert (q1 : q (ic - 1) = uniform_in rng (ic - 1) (U c)) by (unfold q; rewrite upd_other by lia; apply upd_same).
    assert (q2 : q ic = uniform_in rng ic (U (c + 1))) by (unfold q; apply upd_same).
    destruct n as [|n].
    + cbn [snd]. rewrite upd_same, upd_other by lia. repeat split.
      * intros s H1 H2. unfold q. rewrite !upd_other by lia. reflexivity.
      * apply Req_le. field. lra.
      * right. exists c. exact q1.
      * right. right. reflexivity.
    + destruct (IH (c + 2, q) Hic ltac:(lia)) as (A & B & C & D). cbn [snd] in *. split; [|split; [|split]].
      * intros s H1 H2. rewrite A by assumption. unfold q. rewrite !upd_other by assumption. reflexivity.
      * exact B.
      * right. destruct C as [C|C]; [exists c; rewrite C; exact q1|exact C].
      * right. destruct D as [D|[D|D]]; [left; exists (c + 1); rewrite D; exact q2|left; exact D|right; exact D].
  - cbn [snd]. repeat split; auto. lra.
Qed.
Lemma positivity_spec c pm (pm' := snd (positivity nset nlset ng uniform uniform_var rng U wf (c, pm))) : 0 < ng ->
  (forall s, (forall m, m < nlines -> s <> slot_at m (Amp 0) /\ s <> slot_at m (Centre 0)) -> pm' s = pm s) /\
  (forall m, m < nlines -> (0 <= pm' (slot_at m (Amp 0)) - wf * pm' (slot_at m (Centre 0)))%R /\
     (pm' (slot_at m (Amp 0)) = pm (slot_at m (Amp 0)) \/ exists k, pm' (slot_at m (Amp 0)) = uniform_in rng (slot_at m (Amp 0)) (U k)) /\
     (pm' (slot_at m (Centre 0)) = pm (slot_at m (Centre 0)) \/ (exists k, pm' (slot_at m (Centre 0)) = uniform_in rng (slot_at m (Centre 0)) (U k)) \/
      pm' (slot_at m (Centre 0)) = pm' (slot_at m (Amp 0)) / wf)%R).
Proof.
  intros Hng. subst pm'. unfold positivity. rewrite lines_iters.
  set (body := fun m x => _).
  assert (G : forall n, n <= nlines ->
    (forall s, (forall m, m < n -> s <> slot_at m (Amp 0) /\ s <> slot_at m (Centre 0)) -> snd (for_ 0 n body (c, pm)) s = pm s) /\
    (forall m (q := snd (for_ 0 n body (c, pm))), m < n -> (0 <= q (slot_at m (Amp 0)) - wf * q (slot_at m (Centre 0)))%R /\
     (q (slot_at m (Amp 0)) = pm (slot_at m (Amp 0)) \/ exists k, q (slot_at m (Amp 0)) = uniform_in rng (slot_at m (Amp 0)) (U k)) /\
     (q (slot_at m (Centre 0)) = pm (slot_at m (Centre 0)) \/ (exists k, q (slot_at m (Centre 0)) = uniform_in rng (slot_at m (Centre 0)) (U k)) \/
      q (slot_at m (Centre 0)) = q (slot_at m (Amp 0)) / wf)%R)).
  { induction n as [|n IH]; intros Hn; [split; [reflexivity|intros; lia]|]. destruct (IH ltac:(lia)) as [A B]. cbv zeta in *.
    assert (ic : nvar + n * per + 2 = slot_at n (Centre 0)) by (unfold ParamSpec.slot_at; cbn [offset]; lia).
    assert (ia : slot_at n (Centre 0) - 1 = slot_at n (Amp 0)) by (unfold ParamSpec.slot_at; cbn [offset]; lia).
    set (x := for_ 0 n body (c, pm)) in *.
    assert (E : for_ 0 (S n) body (c, pm) = redraw rng U wf (slot_at n (Centre 0)) 101 x).
    { rewrite for_snoc, Nat.add_0_l. unfold body at 1. rewrite ic. reflexivity. }
    rewrite E. destruct (redraw_spec (slot_at n (Centre 0)) 101 x) as (P & Q & S1 & S2).
    { unfold ParamSpec.slot_at. cbn [offset]. lia. } { lia. }
    rewrite ia in *.
    assert (ne : forall m r, m < n -> role_ok ng r -> slot_at m r <> slot_at n (Centre 0) /\ slot_at m r <> slot_at n (Amp 0)).
    { intros m r Hm Hr. split; intros H; apply slot_at_inj in H; cbn [role_ok]; try lia; auto. }
    split.
    - intros s Hs. rewrite P; [apply A; intros m Hm; apply Hs; lia| |]; apply (Hs n); lia.
    - intros m Hm. destruct (Nat.eq_dec m n) as [->|Hmn].
      + split; [exact Q|]. assert (keep : forall r, role_ok ng r -> snd x (slot_at n r) = pm (slot_at n r)).
        { intros r Hr. apply A. intros m' Hm'. split; intros H; apply slot_at_inj in H; cbn [role_ok]; try lia; auto. }
        rewrite <- !keep by (cbn; lia). split; [exact S1|exact S2].
      + destruct (ne m (Amp 0)) as [N1 N2]; [lia|exact Hng|]. destruct (ne m (Centre 0)) as [N3 N4]; [lia|exact Hng|].
        rewrite !(P (slot_at m (Amp 0))), !(P (slot_at m (Centre 0))) by assumption. apply B. lia. }
  apply G. lia.
Qed.
End Pos.

(** ** The set a parameter belongs to *)
Lemma idx_set_own i j r : uniform <> 1 -> (forall i, i < nset -> 0 < nlset i) -> has_line nset nlset i j -> role_ok ng r ->
  get_idx_set nset idxs (slot i j r) = Ok i.
Proof.
  intros Hu Hl [Hi Hj] Hr. unfold get_idx_set.
  assert (G : forall n, n <= nset -> i < n -> get_idx_set_from idxs n (slot i j r) = Ok i).
  { induction n as [|n IH]; intros Hn Hin; [lia|]. cbn [get_idx_set_from]. rewrite idx_line by (split; [lia|apply Hl; lia]). cbn [bind].
    unfold ParamSpec.slot, ParamSpec.slot_at, line_no. apply Nat.eqb_neq in Hu. rewrite Hu. cbn [offset]. apply offset_lt in Hr.
    destruct (Nat.eq_dec i n) as [->|Hne].
    - match goal with |- context [?a <=? ?b] => replace (a <=? b) with true by (symmetry; apply Nat.leb_le; nia) end. reflexivity.
    - pose proof (before_mono nlset (S i) n ltac:(lia)) as M. cbn [before] in M.
      match goal with |- context [?a <=? ?b] => replace (a <=? b) with false by (symmetry; apply Nat.leb_gt; nia) end.
      unfold ParamSpec.slot, ParamSpec.slot_at, line_no in IH. rewrite Hu in IH. apply IH; lia. }
  apply G; lia.
Qed.
Lemma idx_set_last s : uniform = 1 -> 0 < nset -> 0 < nlset (nset - 1) -> nvar <= s -> get_idx_set nset idxs s = Ok (nset - 1).
Proof.
  intros Hu Hn Hl Hs. unfold get_idx_set. destruct nset as [|n] eqn:En; [lia|]. cbn [get_idx_set_from Nat.sub] in *. rewrite Nat.sub_0_r in *.
  rewrite idx_line by (split; [lia|exact Hl]). cbn [bind]. unfold ParamSpec.slot, ParamSpec.slot_at, line_no. rewrite Hu. cbn [Nat.eqb offset].
  match goal with |- context [?a <=? ?b] => replace (a <=? b) with true by (symmetry; apply Nat.leb_le; lia) end. reflexivity.
Qed.

(** ** More lines in a later set than in the first *)
Lemma center_width_UB i pm : i < nset -> nlset 0 < nlset i -> set_center_width nset nlset ng idxs pm = UB.
Proof.
  intros Hi Hl. unfold set_center_width.
  assert (i0 : i <> 0) by (intros ->; lia).
  assert (ok : forall i j s, (idx0 <- read_idx idxs 0 j ;; idx <- read_idx idxs i j ;; Ok (for_ 0 ng (fun k pm =>
      let pm := upd pm (idx + 1 + k * 3 + 1) (pm (idx0 + 1 + k * 3 + 1)%nat) in
      upd pm (idx + 1 + k * 3 + 2) (pm (idx0 + 1 + k * 3 + 2)%nat)) s)) = UB \/
    exists s', (idx0 <- read_idx idxs 0 j ;; idx <- read_idx idxs i j ;; Ok (for_ 0 ng (fun k pm =>
      let pm := upd pm (idx + 1 + k * 3 + 1) (pm (idx0 + 1 + k * 3 + 1)%nat) in
      upd pm (idx + 1 + k * 3 + 2) (pm (idx0 + 1 + k * 3 + 2)%nat)) s)) = Ok s').
  { intros a j s. unfold read_idx. destruct (idxs 0 j); cbn [bind]; [|left; reflexivity]. destruct (idxs a j); cbn [bind]; [|left; reflexivity]. eauto. }
  apply (ofor_UB _ _ _ i); [lia| |].
  - intros k s _. apply ofor_UB_or_ok. intros j s' _. apply ok.
  - intros s. apply (ofor_UB _ _ _ (nlset 0)); [lia| |].
    + intros j s' _. apply ok.
    + intros s'. unfold read_idx. rewrite idx_spec. rewrite Nat.ltb_irrefl, andb_false_r. reflexivity.
Qed.

(** ** Virtual-map mode *)
Lemma vmap_first_centre (sys : bool) : 1 < ng -> (forall i, i < nset -> 0 < nlset i) ->
  exists f, set_fixed_vmap nset nlset ng uniform uniform_var sys idxs = Ok f /\
    (forall i, i < nset -> is_fixed f (slot i 0 (Centre 0)) = true /\ fix_val f (slot i 0 (Centre 0)) = 0%R) /\
    (forall m k, m < nlines -> 0 < k < ng -> is_fixed f (slot_at m (Centre k)) = false).
Proof.
  intros Hng Hl. unfold set_fixed_vmap. cbv zeta.
  set (L1 := flat_map (fun k => [(1 + k * 3, ln 0.1)]) (seq 0 (iters (nvar - 1) 3))).
  assert (E1 : for_ 0 (iters (nvar - 1) 3) (fun k f => fix_at (1 + k * 3) (ln 0.1) f) none_fixed = fixes L1 none_fixed) by (unfold L1; rewrite <- for_fixes; reflexivity).
  rewrite E1. clear E1.
  set (L2 := flat_map (fun i => [(slot i 0 (Centre 0), 0%R)]) (seq 0 nset)).
  assert (E2 : forall f, ofor 0 nset (fun i f => idx <- read_idx idxs i 0 ;; Ok (fix_at (idx + 2) 0 f)) f = Ok (fixes L2 f)).
  { intros f. unfold L2. rewrite <- for_fixes. apply ofor_ok. intros i s Hi. rewrite idx_line by (split; [lia|apply Hl; lia]). cbn [bind].
    rewrite fixes_cons. unfold ParamSpec.slot, ParamSpec.slot_at. cbn [offset Nat.mul Nat.add]. do 4 f_equal. lia. }
  rewrite E2. cbn [bind].
  set (L3 := flat_map (fun k => [(k * 3, ln 1)]) (seq 0 (iters nvar 3))).
  assert (E3 : forall f, for_ 0 (iters nvar 3) (fun k f => fix_at (k * 3) (ln 1) f) f = fixes L3 f) by (intros f; unfold L3; rewrite <- for_fixes; reflexivity).
  rewrite E3, fix_line_list, !fixes_app. eexists. split; [reflexivity|].
  set (L4 := if sys then _ else _). set (L := L1 ++ _).
  destruct (nvar_3 nset uniform_var) as (c & Hc & Hi3).
  assert (InL : forall s v, In (s, v) L -> s < nvar \/ (exists i, i < nset /\ s = slot i 0 (Centre 0) /\ v = 0%R) \/ exists m, s = slot_at m SysErr).
  { intros s v. unfold L, L4. rewrite !in_app_iff. intros [H|[H|[H|H]]].
    - unfold L1 in H. apply in_flat_map in H. destruct H as (k & Hk & [H|[]]). apply in_seq in Hk. injection H as <- <-. left.
      unfold iters in Hk. pose proof (Nat.mul_div_le (nvar - 1 + 3 - 1) 3 ltac:(lia)) as D. lia.
    - unfold L2 in H. apply in_flat_map in H. destruct H as (k & Hk & [H|[]]). apply in_seq in Hk. injection H as <- <-. right. left. exists k. repeat split. lia.
    - unfold L3 in H. apply in_flat_map in H. destruct H as (k & Hk & [H|[]]). apply in_seq in Hk. injection H as <- <-. left. lia.
    - destruct sys; [destruct H|]. apply in_flat_map in H. destruct H as (m & _ & [H|[]]). injection H as <- <-. right. right. exists m. reflexivity. }
  assert (ge : forall m r, nvar <= slot_at m r) by (intros; unfold ParamSpec.slot_at; lia).
  split.
  - intros i Hi. destruct (fixes_spec L none_fixed (slot i 0 (Centre 0))) as (A & _ & C).
    assert (Hin : In (slot i 0 (Centre 0)) (map fst L)).
    { apply in_map_iff. exists (slot i 0 (Centre 0), 0%R). split; [reflexivity|]. unfold L. rewrite !in_app_iff. right. left.
      unfold L2. apply in_flat_map. exists i. split; [apply in_seq; lia|left; reflexivity]. }
    split; [apply A; right; exact Hin|]. apply C; [exact Hin|]. intros w Hw. destruct (InL _ _ Hw) as [H|[(_ & _ & _ & H)|(m & H)]]; [|exact H|].
    + pose proof (ge (line_no nlset uniform i 0) (Centre 0)). unfold ParamSpec.slot in H. lia.
    + apply slot_at_inj in H; cbn [role_ok]; try lia; try exact I. destruct H as [_ H]. discriminate.
  - intros m k Hm Hk. destruct (is_fixed (fixes L none_fixed) (slot_at m (Centre k))) eqn:F; [|reflexivity].
    destruct (fixes_spec L none_fixed (slot_at m (Centre k))) as (A & _ & _). apply A in F. destruct F as [F|F]; [discriminate|].
    apply in_map_iff in F. destruct F as ([s v] & E & F). cbn [fst] in E. subst s. destruct (InL _ _ F) as [H|[(i & _ & H & _)|(m' & H)]].
    + pose proof (ge m (Centre k)). lia.
    + apply slot_at_inj in H; cbn [role_ok]; try lia. destruct H as [_ H]. injection H as ->. lia.
    + apply slot_at_inj in H; cbn [role_ok]; try lia; try exact I. destruct H as [_ H]. discriminate.
Qed.
End More.
