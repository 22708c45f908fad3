(** C39 and C103, what the other modes hold fixed.  In the virtual mode the parameters fixed
    by dnest_vmap are just those that C103_fixing shows to be free of loss, and the
    systematic errors not asked for. *)
From Coq Require Import Reals ZArith List Bool Arith Lia Lra.
From Verif Require Import CPrelude ListLemmas SemisepModel SemisepProofs CovProofs SortModel SortProofs LogXModel LogXProofs ParamModel ParamSpec ParamProofs ParamProofs2 ParamProofs3 ParamProofs4 ParamProofs5 PropParam.
Import ListNotations.
Open Scope nat_scope.

Section Held.
Variable nset : nat.
Variable nlset : nat -> nat.
Variable ng : nat.
Variable uniform : nat.
Variable uniform_var : bool.
Variable sys : bool.
Notation nvar := (num_params_var nset uniform_var).
Notation nlines := (ParamSpec.nlines nset nlset uniform).
Notation slot_at := (ParamSpec.slot_at nset ng uniform_var).
Notation slot := (ParamSpec.slot nset nlset ng uniform uniform_var).
Notation idxs := (set_idx_line_pm nset nlset ng uniform uniform_var unset).
(** parameter c of the variability of set i: 0 systematic error, 1 sigma, 2 damping time *)
Definition var_at (i c : nat) : nat := if uniform_var then c else 3 * i + c.

(** The mixed mode fixes what the general mode does, but no widths. *)
Theorem C39_own_fixed_mixed : forall con_err line_err tlp lag_low lag_upper,
  exists fx, set_fixed_mmap nset nlset ng uniform uniform_var con_err line_err tlp lag_low lag_upper idxs = Ok fx /\
  (forall s, s < nvar -> (is_fixed fx s = true <-> con_err = false /\ s mod 3 = 0) /\ (is_fixed fx s = true -> fix_val fx s = 0%R)) /\
  (forall i j r, i < nset -> j < nlset i -> role_ok ng r ->
     let value := match r with
       | SysErr => if line_err then None else Some 0%R
       | Centre k => if (tlp =? 2) || (tlp =? 3) then Some (lag_low + INR k * ((lag_upper - lag_low) / INR (ng - 1)))%R else None
       | _ => None end in
     let tie := uniform = 2 /\ 1 <= i /\ match r with Centre _ | Width _ => True | _ => False end in
     (is_fixed fx (slot i j r) = true <-> value <> None \/ tie) /\ (forall v, ~ tie -> value = Some v -> fix_val fx (slot i j r) = v)).
Proof.
  intros con_err line_err tlp lag_low lag_upper.
  destruct (set_fixed_mmap_spec nset nlset ng uniform uniform_var con_err line_err tlp 0 lag_low lag_upper) as (fx & E & A & B).
  exists fx. split; [exact E|]. split; [exact A|]. intros i j r Hi Hj Hr value tie.
  destruct (B (line_no nlset uniform i j) r (line_no_lt nset nlset uniform i j Hi Hj) Hr) as [B1 B2]. fold (slot i j r) in B1, B2.
  assert (V : value = line_value ng line_err tlp 0 lag_low lag_upper false r).
  { unfold value. destruct r as [|k|k|k]; cbn [line_value]; try reflexivity. unfold ParamModel.dlag.
    replace ((2 <=? tlp) && (tlp <=? 3)) with ((tlp =? 2) || (tlp =? 3)); [reflexivity|].
    destruct tlp as [|[|[|[|n]]]]; reflexivity. }
  assert (T : tie <-> exists b, ParamSpec.tied nset nlset ng uniform uniform_var true (slot i j r) b).
  { unfold tie, ParamSpec.tied. split.
    - intros (U & I1 & R). exists (slot 0 j r). split; [reflexivity|]. split; [exact U|]. exists i, j, r. repeat split; auto.
    - intros (b & _ & U & i' & j' & r' & I1 & L & R & TR & E' & _). apply slot_inj in E'; [|lia|exact Hr|exact R|split; assumption|exact L].
      destruct E' as (-> & _ & ->). split; [exact U|]. split; [exact I1|]. destruct r'; exact TR. }
  split; [rewrite V, T; exact B1|]. intros v Hn Hv. apply B2; [rewrite <- T; exact Hn|rewrite <- V; exact Hv].
Qed.
(** The photometric mode and the fit of the continuum alone fix only systematic errors. *)
Theorem C39_own_fixed_photometric : forall con_err line_err,
  let fx := set_fixed_pmap nset nlset ng uniform uniform_var con_err line_err in
  (forall s, s < nvar -> (is_fixed fx s = true <-> con_err = false /\ s mod 3 = 0) /\ (is_fixed fx s = true -> fix_val fx s = 0%R)) /\
  (forall i j r, i < nset -> j < nlset i -> role_ok ng r ->
     (is_fixed fx (slot i j r) = true <-> line_err = false /\ r = SysErr) /\ (is_fixed fx (slot i j r) = true -> fix_val fx (slot i j r) = 0%R)).
Proof.
  intros con_err line_err fx. assert (ge : forall m r, nvar <= slot_at m r) by (intros; unfold ParamSpec.slot_at; lia).
  set (L := list_con nset uniform_var con_err ++ (if line_err then [] else flat_map (fun m => [(slot_at m SysErr, ln 1)]) (seq 0 nlines))).
  assert (EF : fx = fixes L none_fixed).
  { unfold fx, set_fixed_pmap. rewrite fix_line_list, fix_con_list, fixes_app. reflexivity. }
  assert (IL : forall s v, In (s, v) L <-> (con_err = false /\ v = 0%R /\ s < nvar /\ s mod 3 = 0) \/ (line_err = false /\ exists m, m < nlines /\ s = slot_at m SysErr /\ v = 0%R)).
  { intros s v. unfold L. rewrite in_app_iff, (in_list_con nset nlset). destruct line_err.
    - cbn. split; [intros [H|[]]; auto|]. intros [H|[H _]]; [auto|discriminate].
    - rewrite ln_1, in_flat_map. split.
      + intros [H|(k & Hk & [H|[]])]; [auto|]. apply in_seq in Hk. injection H as <- <-. right. split; [reflexivity|]. exists k. repeat split; lia.
      + intros [H|(_ & k & H & -> & ->)]; [auto|]. right. exists k. split; [apply in_seq; lia|left; reflexivity]. }
  assert (Z : forall s, is_fixed fx s = true -> fix_val fx s = 0%R).
  { intros s F. rewrite EF in *. destruct (fixes_spec L none_fixed s) as (A & _ & C). apply A in F. destruct F as [F|F]; [discriminate|].
    apply C; [exact F|]. intros w W. apply IL in W. destruct W as [(_ & W & _)|(_ & _ & _ & _ & W)]; exact W. }
  assert (K : forall s, is_fixed fx s = true <-> exists v, In (s, v) L).
  { intros s. rewrite EF. destruct (fixes_spec L none_fixed s) as (A & _ & _). rewrite A, in_map_iff. cbn [is_fixed none_fixed]. split.
    - intros [F|([a v] & <- & H)]; [discriminate|]. exists v. exact H.
    - intros (v & H). right. exists (s, v). auto. }
  split.
  - intros s Hs. split; [|apply Z]. rewrite K. split.
    + intros (v & H). apply IL in H. destruct H as [H|(_ & m & _ & H & _)]; [tauto|]. pose proof (ge m SysErr). lia.
    + intros [H1 H2]. exists 0%R. apply IL. auto.
  - intros i j r Hi Hj Hr. split; [|apply Z]. rewrite K. unfold ParamSpec.slot. split.
    + intros (v & H). apply IL in H. destruct H as [(_ & _ & H & _)|(Hl & m & _ & H & _)]; [pose proof (ge (line_no nlset uniform i j) r); lia|].
      apply slot_at_inj in H; [|exact Hr|exact I]. tauto.
    + intros [Hl ->]. exists 0%R. apply IL. right. split; [exact Hl|]. exists (line_no nlset uniform i j). split; [apply line_no_lt; assumption|auto].
Qed.
Theorem C39_own_fixed_continuum : forall con_err found s,
  let fx := set_fixed_con nset uniform_var con_err found in
  s < nvar -> (is_fixed fx s = true <-> con_err = false /\ s mod 3 = 0) /\ (is_fixed fx s = true -> fix_val fx s = 0%R) /\
    (is_fixed fx s = false -> fix_val fx s = found s).
Proof.
  intros con_err found s fx Hs. unfold fx, set_fixed_con. rewrite fix_con_list. fold (list_con nset uniform_var con_err).
  destruct (fixes_spec (list_con nset uniform_var con_err) (Fixed (fun _ => false) found) s) as (A & B & C).
  assert (K : In s (map fst (list_con nset uniform_var con_err)) <-> con_err = false /\ s mod 3 = 0).
  { rewrite in_map_iff. split.
    - intros ([a v] & <- & H). apply (in_list_con nset nlset) in H. tauto.
    - intros [H1 H2]. exists (s, 0%R). split; [reflexivity|]. apply (in_list_con nset nlset). auto. }
  cbn [is_fixed] in A. split; [|split].
  - rewrite A, K. split; [intros [H|H]; [discriminate|exact H]|auto].
  - intros F. apply A in F. destruct F as [F|F]; [discriminate|]. apply C; [exact F|]. intros w W. apply (in_list_con nset nlset) in W. tauto.
  - intros F. apply B. intros G. rewrite (proj2 A (or_intror G)) in F. discriminate.
Qed.

Lemma iters_less n : iters (3 * n - 1) 3 = n.
Proof.
  unfold iters. destruct n as [|n]; [reflexivity|]. replace (3 * S n - 1 + 3 - 1) with (1 + S n * 3) by lia.
  rewrite Nat.div_add by lia. reflexivity.
Qed.
Lemma vmap_list : (forall i, i < nset -> 0 < nlset i) -> exists L,
  set_fixed_vmap nset nlset ng uniform uniform_var sys idxs = Ok (fixes L none_fixed) /\
  forall s v, In (s, v) L <->
    (exists k, s = 3 * k + 1 /\ s < nvar /\ v = ln (1 / 10)) \/ (exists k, s = 3 * k /\ s < nvar /\ v = 0%R) \/
    (exists i, i < nset /\ s = slot i 0 (Centre 0) /\ v = 0%R) \/ (sys = false /\ exists m, m < nlines /\ s = slot_at m SysErr /\ v = 0%R).
Proof.
  intros Hl. unfold set_fixed_vmap. cbv zeta.
  set (L1 := flat_map (fun k => [(1 + k * 3, ln 0.1)]) (seq 0 (iters (nvar - 1) 3))).
  assert (E1 : for_ 0 (iters (nvar - 1) 3) (fun k f => fix_at (1 + k * 3) (ln 0.1) f) none_fixed = fixes L1 none_fixed) by (unfold L1; rewrite <- for_fixes; reflexivity).
  rewrite E1. clear E1.
  set (L2 := flat_map (fun i => [(slot i 0 (Centre 0), 0%R)]) (seq 0 nset)).
  assert (E2 : forall f, ofor 0 nset (fun i f => idx <- read_idx idxs i 0 ;; Ok (fix_at (idx + 2) 0 f)) f = Ok (fixes L2 f)).
  { intros f. unfold L2. rewrite <- for_fixes. apply ofor_ok. intros i s Hi. rewrite idx_line by (split; [lia|apply Hl; lia]). cbn [bind].
    rewrite fixes_cons. unfold ParamSpec.slot, ParamSpec.slot_at. cbn [offset Nat.mul Nat.add]. do 4 f_equal. lia. }
  rewrite E2. cbn [bind].
  set (L3 := flat_map (fun k => [(k * 3, ln 1)]) (seq 0 (iters nvar 3))).
  assert (E3 : forall f, for_ 0 (iters nvar 3) (fun k f => fix_at (k * 3) (ln 1) f) f = fixes L3 f) by (intros f; unfold L3; rewrite <- for_fixes; reflexivity).
  rewrite E3, fix_line_list, !fixes_app. eexists. split; [reflexivity|].
  destruct (nvar_3 nset uniform_var) as (c & Hc & Hi3).
  assert (I1 : forall s v, In (s, v) L1 <-> exists k, s = 3 * k + 1 /\ s < nvar /\ v = ln (1 / 10)).
  { intros s v. unfold L1. rewrite Hc, iters_less, in_flat_map. replace (ln 0.1) with (ln (1 / 10)) by (f_equal; lra). split.
    - intros (k & Hk & [H|[]]). apply in_seq in Hk. injection H as <- <-. exists k. repeat split; lia.
    - intros (k & -> & H & ->). exists k. split; [apply in_seq; lia|]. left. f_equal. lia. }
  assert (I2 : forall s v, In (s, v) L2 <-> exists i, i < nset /\ s = slot i 0 (Centre 0) /\ v = 0%R).
  { intros s v. unfold L2. rewrite in_flat_map. split.
    - intros (k & Hk & [H|[]]). apply in_seq in Hk. injection H as <- <-. exists k. repeat split; lia.
    - intros (k & H & -> & ->). exists k. split; [apply in_seq; lia|]. left. reflexivity. }
  assert (I3 : forall s v, In (s, v) L3 <-> exists k, s = 3 * k /\ s < nvar /\ v = 0%R).
  { intros s v. unfold L3. rewrite Hi3, ln_1, in_flat_map. split.
    - intros (k & Hk & [H|[]]). apply in_seq in Hk. injection H as <- <-. exists k. repeat split; lia.
    - intros (k & -> & H & ->). exists k. split; [apply in_seq; lia|]. left. f_equal. lia. }
  intros s v. rewrite !in_app_iff, I1, I2, I3.
  assert (I4 : In (s, v) (if sys then [] else flat_map (fun m => [(slot_at m SysErr, ln 1)]) (seq 0 nlines)) <->
    sys = false /\ exists m, m < nlines /\ s = slot_at m SysErr /\ v = 0%R).
  { destruct sys; [split; [intros []|intros [H _]; discriminate]|]. rewrite ln_1, in_flat_map. split.
    - intros (k & Hk & [H|[]]). apply in_seq in Hk. injection H as <- <-. split; [reflexivity|]. exists k. repeat split; lia.
    - intros (_ & k & H & -> & ->). exists k. split; [apply in_seq; lia|]. left. reflexivity. }
  rewrite I4. tauto.
Qed.

(** In the virtual mode, with at least one line in each set: sigma is held at 0.1, the
    systematic error of the absent continuum at factor 1, the first lag of the first line
    of each set at 0, the systematic errors of the lines at factor 1 when they are not
    asked for, and nothing else is held. *)
Theorem C103_held : 1 <= ng -> (forall i, i < nset -> 0 < nlset i) ->
  exists f, set_fixed_vmap nset nlset ng uniform uniform_var sys idxs = Ok f /\
   (forall i, i < nset ->
      (is_fixed f (var_at i 0) = true /\ fix_val f (var_at i 0) = 0%R) /\
      (is_fixed f (var_at i 1) = true /\ fix_val f (var_at i 1) = ln (1 / 10)) /\
      is_fixed f (var_at i 2) = false) /\
   (forall i j r, i < nset -> j < nlset i -> role_ok ng r ->
      (is_fixed f (slot i j r) = true <-> (j = 0 /\ r = Centre 0) \/ (sys = false /\ r = SysErr)) /\
      (is_fixed f (slot i j r) = true -> fix_val f (slot i j r) = 0%R)).
Proof.
  intros N Hl. destruct (vmap_list Hl) as (L & E & IL). exists (fixes L none_fixed). split; [exact E|].
  assert (ge : forall m r, nvar <= slot_at m r) by (intros; unfold ParamSpec.slot_at; lia).
  assert (KIN : forall s, In s (map fst L) <-> exists v, In (s, v) L).
  { intros s. rewrite in_map_iff. split; [intros ([a v] & <- & H); exists v; exact H|intros (v & H); exists (s, v); auto]. }
  split.
  - intros i Hi. assert (V : exists k, (forall c, var_at i c = 3 * k + c) /\ 3 * k + 2 < nvar).
    { unfold var_at, num_params_var. destruct uniform_var; [exists 0|exists i]; (split; [intros; lia|lia]). }
    destruct V as (k & V & B). rewrite !V.
    destruct (fixes_spec L none_fixed (3 * k + 0)) as (A0 & _ & C0). destruct (fixes_spec L none_fixed (3 * k + 1)) as (A1 & _ & C1). destruct (fixes_spec L none_fixed (3 * k + 2)) as (A2 & _ & _).
    assert (M0 : In (3 * k + 0) (map fst L)) by (apply KIN; exists 0%R; apply IL; right; left; exists k; repeat split; lia).
    assert (M1 : In (3 * k + 1) (map fst L)) by (apply KIN; exists (ln (1 / 10)); apply IL; left; exists k; repeat split; lia).
    repeat split.
    + apply A0. right. exact M0.
    + apply C0; [exact M0|]. intros w W. apply IL in W. destruct W as [(? & ? & _)|[(_ & _ & _ & W)|[(j & _ & H & _)|(_ & m & _ & H & _)]]]; [lia|exact W| |].
      * pose proof (ge (line_no nlset uniform j 0) (Centre 0)). unfold ParamSpec.slot in H. lia.
      * pose proof (ge m SysErr). lia.
    + apply A1. right. exact M1.
    + apply C1; [exact M1|]. intros w W. apply IL in W. destruct W as [(_ & _ & _ & W)|[(? & ? & _)|[(j & _ & H & _)|(_ & m & _ & H & _)]]]; [exact W|lia| |].
      * pose proof (ge (line_no nlset uniform j 0) (Centre 0)). unfold ParamSpec.slot in H. lia.
      * pose proof (ge m SysErr). lia.
    + apply not_true_is_false. intros F. apply A2 in F. destruct F as [F|F]; [discriminate|]. apply KIN in F. destruct F as (v & W).
      apply IL in W. destruct W as [(? & ? & _)|[(? & ? & _)|[(j & _ & H & _)|(_ & m & _ & H & _)]]]; [lia|lia| |].
      * pose proof (ge (line_no nlset uniform j 0) (Centre 0)). unfold ParamSpec.slot in H. lia.
      * pose proof (ge m SysErr). lia.
  - intros i j r Hi Hj Hr. pose proof (ge (line_no nlset uniform i j) r) as G.
    destruct (fixes_spec L none_fixed (slot i j r)) as (A & _ & C).
    assert (LN : line_no nlset uniform i j < nlines).
    { unfold line_no, ParamSpec.nlines. destruct (uniform =? 1).
      - pose proof (proj1 (lmax_ge nlset nset) i Hi). lia.
      - pose proof (before_mono nlset (S i) nset ltac:(lia)) as B. cbn [ParamSpec.before] in B. lia. }
    assert (K : forall v, In (slot i j r, v) L <-> v = 0%R /\ ((j = 0 /\ r = Centre 0) \/ (sys = false /\ r = SysErr))).
    { intros v. rewrite IL. unfold ParamSpec.slot. split.
      - intros [(k & E1 & H & _)|[(k & E1 & H & _)|[(i' & Hi' & H & W)|(Hs & m & _ & H & W)]]]; [lia|lia| |].
        + split; [exact W|]. left. apply slot_at_inj in H; [|exact Hr|exact N]. destruct H as [H ->]. split; [|reflexivity].
          unfold line_no in H. destruct (uniform =? 1); [exact H|]. apply before_inj in H; [tauto|exact Hj|apply Hl; exact Hi'].
        + apply slot_at_inj in H; [|exact Hr|exact I]. split; [exact W|]. right. tauto.
      - intros [-> [[-> ->]|[Hs ->]]].
        + right. right. left. exists i. auto.
        + right. right. right. split; [exact Hs|]. exists (line_no nlset uniform i j). auto. }
    split; [|intros F].
    + rewrite A. rewrite KIN. cbn [is_fixed none_fixed]. split.
      * intros [F|(v & W)]; [discriminate|]. apply K in W. tauto.
      * intros W. right. exists 0%R. apply K. auto.
    + apply A in F. destruct F as [F|F]; [discriminate|]. apply C; [exact F|]. intros w W. apply K in W. tauto.
Qed.
End Held.
Print Assumptions C39_own_fixed_mixed.
Print Assumptions C39_own_fixed_photometric.
Print Assumptions C39_own_fixed_continuum.
Print Assumptions C103_held.

Example C103_held_case : exists f, set_fixed_vmap 2 (fun i => i + 1) 2 0 false true (set_idx_line_pm 2 (fun i => i + 1) 2 0 false unset) = Ok f /\
  is_fixed f 8 = true /\ is_fixed f 15 = true /\ is_fixed f 22 = false /\ is_fixed f 11 = false.
Proof.
  destruct (C103_held 2 (fun i => i + 1) 2 0 false true ltac:(lia) ltac:(intros; cbn; lia)) as (f & E & _ & H). exists f. split; [exact E|].
  pose proof (H 0 0 (Centre 0) ltac:(lia) ltac:(cbn; lia) ltac:(cbn; lia)) as [A _]. pose proof (H 1 0 (Centre 0) ltac:(lia) ltac:(cbn; lia) ltac:(cbn; lia)) as [B _].
  pose proof (H 1 1 (Centre 0) ltac:(lia) ltac:(cbn; lia) ltac:(cbn; lia)) as [C _]. pose proof (H 0 0 (Centre 1) ltac:(lia) ltac:(cbn; lia) ltac:(cbn; lia)) as [D _].
  cbn in A, B, C, D. split; [apply A; auto|]. split; [apply B; auto|]. split.
  - destruct (is_fixed f 22); [|reflexivity]. destruct (proj1 C eq_refl) as [[? _]|[? _]]; discriminate.
  - destruct (is_fixed f 11); [|reflexivity]. destruct (proj1 D eq_refl) as [[_ ?]|[? _]]; discriminate.
Qed.
(** Two sets with one and two lines, two components: lags on a grid from 0 to 10. *)
Example C39_own_fixed_mixed_case : exists f, set_fixed_mmap 2 (fun i => i + 1) 2 0 false true true 2 0 10 (set_idx_line_pm 2 (fun i => i + 1) 2 0 false unset) = Ok f /\
  is_fixed f 0 = false /\ is_fixed f 6 = false /\ is_fixed f 7 = false /\ is_fixed f 11 = true /\ fix_val f 11 = 10%R.
Proof.
  destruct (C39_own_fixed_mixed 2 (fun i => i + 1) 2 0 false true true 2 0 10) as (f & E & V & H). exists f. split; [exact E|].
  destruct (V 0 ltac:(cbn; lia)) as [V0 _]. destruct (H 0 0 SysErr ltac:(lia) ltac:(cbn; lia) Logic.I) as [A _]. destruct (H 0 0 (Amp 0) ltac:(lia) ltac:(cbn; lia) ltac:(cbn; lia)) as [B _].
  destruct (H 0 0 (Centre 1) ltac:(lia) ltac:(cbn; lia) ltac:(cbn; lia)) as [C D].
  change (slot 2 (fun i => i + 1) 2 0 false 0 0 SysErr) with 6 in A. change (slot 2 (fun i => i + 1) 2 0 false 0 0 (Amp 0)) with 7 in B. change (slot 2 (fun i => i + 1) 2 0 false 0 0 (Centre 1)) with 11 in C, D.
  cbn [Nat.eqb orb] in A, B, C, D. repeat split.
  - apply not_true_is_false. intros F. apply V0 in F. destruct F; discriminate.
  - apply not_true_is_false. intros F. apply A in F. destruct F as [F|(F & _)]; [apply F; reflexivity|discriminate].
  - apply not_true_is_false. intros F. apply B in F. destruct F as [F|(F & _)]; [apply F; reflexivity|discriminate].
  - apply C. left. discriminate.
  - rewrite (D _ ltac:(intros (F & _); discriminate) eq_refl). cbn. lra.
Qed.
Example C39_own_fixed_photometric_case : let f := set_fixed_pmap 1 (fun _ => 1) 2 0 true false false in is_fixed f 0 = true /\ is_fixed f 1 = false /\ is_fixed f 3 = true /\ is_fixed f 4 = false.
Proof. repeat split. Qed.
Example C39_own_fixed_continuum_case : let f := set_fixed_con 2 false false (fun _ => 7%R) in is_fixed f 3 = true /\ is_fixed f 4 = false.
Proof. split; reflexivity. Qed.
