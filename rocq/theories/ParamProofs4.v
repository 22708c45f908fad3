(** Which parameters the program fixes by itself, and at what values. *)
From Coq Require Import Reals ZArith List Bool Arith Lia Lra.
From Verif Require Import CPrelude ListLemmas SemisepModel SemisepProofs CovProofs ParamModel ParamSpec ParamProofs ParamProofs2.
Import ListNotations.
Open Scope nat_scope.

Section FixedProofs.
Variable nset : nat.
Variable nlset : nat -> nat.
Variable ng : nat.
Variable uniform : nat.
Variable uniform_var : bool.
Notation nvar := (num_params_var nset uniform_var).
Notation per := (per_line ng).
Notation npl := (num_params_line nset nlset ng uniform).
Notation np := (num_params nset nlset ng uniform uniform_var).
Notation nlines := (nlines nset nlset uniform).
Notation slot_at := (slot_at nset ng uniform_var).
Notation slot := (slot nset nlset ng uniform uniform_var).
Notation tied := (tied nset nlset ng uniform uniform_var).
Notation idxs := (set_idx_line_pm nset nlset ng uniform uniform_var unset).

Lemma fixes_cons a v f : fix_at a v f = fixes [(a, v)] f.
Proof. reflexivity. Qed.
Lemma fix_con_list (b : bool) f : fix_con nset uniform_var b f = fixes (if b then [] else flat_map (fun m => [(m * 3, ln 1)]) (seq 0 (iters nvar 3))) f.
Proof. unfold fix_con. destruct b; [reflexivity|]. rewrite <- for_fixes. reflexivity. Qed.
Lemma fix_line_list (b : bool) f : fix_line nset nlset ng uniform uniform_var b f
  = fixes (if b then [] else flat_map (fun m => [(slot_at m SysErr, ln 1)]) (seq 0 nlines)) f.
Proof.
  unfold fix_line. destruct b; [reflexivity|]. rewrite <- for_fixes, lines_iters. apply for_body. intros m s _.
  rewrite fixes_cons. unfold ParamSpec.slot_at. cbn [offset]. do 3 f_equal. lia.
Qed.
Lemma fix_each_list off val f : fix_each nset nlset ng uniform uniform_var off val f
  = fixes (flat_map (fun m => map (fun i => (nvar + m * per + 1 + i * 3 + off, val i)) (seq 0 ng)) (seq 0 nlines)) f.
Proof.
  unfold fix_each, ParamSpec.nlines. destruct (uniform =? 1).
  - rewrite <- for_fixes. apply for_body. intros m s _. unfold fixes. rewrite <- (for_map (fun f c => fix_at (fst c) (snd c) f)). reflexivity.
  - set (L := fun m => map (fun i => (nvar + m * per + 1 + i * 3 + off, val i)) (seq 0 ng)).
    match goal with |- snd (for_ 0 nset ?b _) = _ => set (body := b) end.
    assert (line : forall m f, (for_ 0 ng (fun i x => let '(ic, f) := x in (ic + 3, fix_at (ic + off) (val i) f)) (nvar + m * per + 1, f))
      = (nvar + S m * per, fixes (L m) f)).
    { intros m f0. unfold L. assert (G : forall n, for_ 0 n (fun i x => let '(ic, f) := x in (ic + 3, fix_at (ic + off) (val i) f)) (nvar + m * per + 1, f0)
        = (nvar + m * per + 1 + n * 3, fixes (map (fun i => (nvar + m * per + 1 + i * 3 + off, val i)) (seq 0 n)) f0)).
      { induction n as [|n IH]; [cbn [for_ seq fold_left map fixes]; f_equal; lia|]. rewrite for_snoc, IH, Nat.add_0_l.
        rewrite seq_S, map_app, <- fixes_app. cbn [map Nat.add]. rewrite <- fixes_cons. f_equal. lia. }
      rewrite G. f_equal. unfold per_line. lia. }
    assert (G : forall n, for_ 0 n body (nvar, f) = (nvar + before nlset n * per, fixes (flat_map L (seq 0 (before nlset n))) f)).
    { induction n as [|n IH]; [cbn [for_ seq fold_left before flat_map fixes]; f_equal; lia|]. rewrite for_snoc, IH, Nat.add_0_l.
      unfold body. cbn [before]. generalize (nlset n) as k. intros k. induction k as [|k IHk].
      - rewrite Nat.add_0_r. reflexivity.
      - rewrite for_snoc, IHk. cbv zeta.
        rewrite line. rewrite Nat.add_succ_r, seq_S, flat_map_app, <- fixes_app. cbn [flat_map Nat.add]. rewrite app_nil_r. reflexivity. }
    rewrite G. reflexivity.
Qed.
Lemma fix_tied_list f : fix_tied nset nlset ng uniform idxs f = Ok (fixes (if uniform =? 2 then
  flat_map (fun i => flat_map (fun j => flat_map (fun k => [(slot i j (Centre k), 99.9%R); (slot i j (Width k), 99.9%R)]) (seq 0 ng)) (seq 0 (nlset i))) (seq 1 (nset - 1)) else []) f).
Proof.
  unfold fix_tied. destruct (uniform =? 2); [|reflexivity].
  rewrite <- for_fixes. apply ofor_ok. intros i s Hi. rewrite <- for_fixes. apply ofor_ok. intros j s' Hj.
  rewrite (idx_line nset nlset ng uniform uniform_var i j) by (split; lia). cbn [bind]. f_equal.
  rewrite <- for_fixes. apply for_body. intros k t Hk. unfold fixes. cbn [fold_left fst snd].
  unfold ParamSpec.slot, ParamSpec.slot_at. cbn [offset]. set (a := nvar + _ * per).
  replace (a + 0 + 1 + k * 3 + 1) with (a + (2 + 3 * k)) by lia. replace (a + 0 + 1 + k * 3 + 2) with (a + (3 + 3 * k)) by lia. reflexivity.
Qed.

Variables flag_con_sys_err flag_line_sys_err : bool.
Variables type_lag_prior type_tf : nat.
Variables lag_limit_low lag_limit_upper : R.
Notation dlag := (dlag ng lag_limit_low lag_limit_upper).

(** the value given to a parameter of a line, if it is fixed *)
Definition line_value (widths : bool) (r : role) : option R :=
  match r with
  | SysErr => if flag_line_sys_err then None else Some 0%R
  | Amp _ => None
  | Centre k => if (2 <=? type_lag_prior) && (type_lag_prior <=? 3) then Some (lag_limit_low + INR k * dlag)%R else None
  | Width _ => if widths && ((type_tf =? 1) && (type_lag_prior =? 3)) then Some (ln (dlag / 2)) else None
  end.
Definition list_con := if flag_con_sys_err then [] else flat_map (fun m => [(m * 3, ln 1)]) (seq 0 (iters nvar 3)).
Definition list_lines (widths : bool) : list (nat * R) :=
  (if flag_line_sys_err then [] else flat_map (fun m => [(slot_at m SysErr, ln 1)]) (seq 0 nlines)) ++
  (if (2 <=? type_lag_prior) && (type_lag_prior <=? 3) then flat_map (fun m => map (fun i => (slot_at m (Centre i), (lag_limit_low + INR i * dlag)%R)) (seq 0 ng)) (seq 0 nlines) else []) ++
  (if widths && ((type_tf =? 1) && (type_lag_prior =? 3)) then flat_map (fun m => map (fun i => (slot_at m (Width i), ln (dlag / 2))) (seq 0 ng)) (seq 0 nlines) else []).
Definition list_tied := if uniform =? 2 then
  flat_map (fun i => flat_map (fun j => flat_map (fun k => [(slot i j (Centre k), 99.9%R); (slot i j (Width k), 99.9%R)]) (seq 0 ng)) (seq 0 (nlset i))) (seq 1 (nset - 1)) else [].

Lemma in_list_con s v : In (s, v) list_con <-> flag_con_sys_err = false /\ v = 0%R /\ s < nvar /\ s mod 3 = 0.
Proof.
  unfold list_con. destruct (nvar_3 nset uniform_var) as (c & Hn & Hi). rewrite Hi, ln_1. destruct flag_con_sys_err; [cbn; split; [tauto|intros [? _]; discriminate]|].
  rewrite in_flat_map. split.
  - intros (m & Hm & [H|[]]). apply in_seq in Hm. injection H as <- <-. split; [reflexivity|]. split; [reflexivity|]. split; [lia|]. apply Nat.mod_mul. lia.
  - intros (_ & -> & Hs & Hm). exists (s / 3). pose proof (Nat.div_mod s 3 ltac:(lia)). split; [apply in_seq; lia|]. left. f_equal. lia.
Qed.
Lemma in_list_lines widths s v : In (s, v) (list_lines widths) <-> exists m r, m < nlines /\ role_ok ng r /\ s = slot_at m r /\ line_value widths r = Some v.
Proof.
  unfold list_lines. rewrite !in_app_iff. split.
  - intros [H|[H|H]].
    + destruct flag_line_sys_err eqn:F; [destruct H|]. apply in_flat_map in H. destruct H as (m & Hm & [H|[]]). apply in_seq in Hm. injection H as <- <-.
      exists m, SysErr. rewrite ln_1. cbn [line_value role_ok]. rewrite F. repeat split; auto; lia.
    + destruct ((2 <=? type_lag_prior) && (type_lag_prior <=? 3)) eqn:F; [|destruct H]. apply in_flat_map in H. destruct H as (m & Hm & H). apply in_seq in Hm.
      apply in_map_iff in H. destruct H as (i & H & Hi). apply in_seq in Hi. injection H as <- <-.
      exists m, (Centre i). cbn [line_value role_ok]. rewrite F. repeat split; auto; lia.
    + destruct (widths && ((type_tf =? 1) && (type_lag_prior =? 3))) eqn:F; [|destruct H]. apply in_flat_map in H. destruct H as (m & Hm & H). apply in_seq in Hm.
      apply in_map_iff in H. destruct H as (i & H & Hi). apply in_seq in Hi. injection H as <- <-.
      exists m, (Width i). cbn [line_value role_ok]. rewrite F. repeat split; auto; lia.
  - intros (m & r & Hm & Hr & -> & Hv). destruct r as [|k|k|k]; cbn [line_value role_ok] in *.
    + left. destruct flag_line_sys_err; [discriminate|]. injection Hv as <-. apply in_flat_map. exists m. split; [apply in_seq; lia|]. left. rewrite ln_1. reflexivity.
    + discriminate.
    + right. left. destruct ((2 <=? type_lag_prior) && (type_lag_prior <=? 3)); [|discriminate]. injection Hv as <-.
      apply in_flat_map. exists m. split; [apply in_seq; lia|]. apply in_map_iff. exists k. split; [reflexivity|]. apply in_seq. lia.
    + right. right. destruct (widths && ((type_tf =? 1) && (type_lag_prior =? 3))); [|discriminate]. injection Hv as <-.
      apply in_flat_map. exists m. split; [apply in_seq; lia|]. apply in_map_iff. exists k. split; [reflexivity|]. apply in_seq. lia.
Qed.
Lemma in_list_tied s : In s (map fst list_tied) <-> exists b, tied true s b.
Proof.
  unfold list_tied. destruct (Nat.eqb_spec uniform 2) as [Hu|Hu].
  2:{ cbn. split; [tauto|]. intros (b & _ & H & _). contradiction. }
  rewrite in_map_iff. split.
  - intros ([s' v] & E & H). cbn [fst] in E. subst s'. apply in_flat_map in H. destruct H as (i & Hi & H). apply in_seq in Hi.
    apply in_flat_map in H. destruct H as (j & Hj & H). apply in_seq in Hj. apply in_flat_map in H. destruct H as (k & Hk & H). apply in_seq in Hk.
    destruct H as [H|[H|[]]]; injection H as <- <-; [exists (slot 0 j (Centre k))|exists (slot 0 j (Width k))];
      (split; [reflexivity|]; split; [exact Hu|]); [exists i, j, (Centre k)|exists i, j, (Width k)];
      (split; [lia|]; split; [split; lia|]; split; [cbn; lia|]; split; [exact I|split; reflexivity]).
  - intros (b & _ & _ & i & j & r & Hi & [Hn Hj] & Hr & Ht & -> & ->). exists (slot i j r, 99.9%R). split; [reflexivity|].
    apply in_flat_map. exists i. split; [apply in_seq; lia|]. apply in_flat_map. exists j. split; [apply in_seq; lia|].
    destruct r as [|k|k|k]; try contradiction; apply in_flat_map; exists k; cbn in Hr; (split; [apply in_seq; lia|]); cbn; tauto.
Qed.

Lemma each_slot off (r : nat -> role) val : (forall i, 1 + i * 3 + off = offset (r i)) ->
  flat_map (fun m => map (fun i => (nvar + m * per + 1 + i * 3 + off, val i)) (seq 0 ng)) (seq 0 nlines)
  = flat_map (fun m => map (fun i => (slot_at m (r i), val i : R)) (seq 0 ng)) (seq 0 nlines).
Proof.
  intros H. rewrite !flat_map_concat_map. f_equal. apply map_ext. intros m. apply map_ext. intros i. unfold ParamSpec.slot_at. rewrite <- H. f_equal. lia.
Qed.
Notation lags := (fix_lags nset nlset ng uniform uniform_var type_lag_prior lag_limit_low lag_limit_upper).
Notation wids := (fix_widths nset nlset ng uniform uniform_var type_lag_prior type_tf lag_limit_low lag_limit_upper).
Lemma fix_lags_list f : lags f = fixes (if (2 <=? type_lag_prior) && (type_lag_prior <=? 3) then flat_map (fun m => map (fun i => (slot_at m (Centre i), (lag_limit_low + INR i * dlag)%R)) (seq 0 ng)) (seq 0 nlines) else []) f.
Proof. unfold fix_lags. destruct (_ && _); [|reflexivity]. rewrite fix_each_list, (each_slot 1 Centre); [reflexivity|]. intros i. cbn [offset]. lia. Qed.
Lemma fix_widths_list f : wids f = fixes (if (type_tf =? 1) && (type_lag_prior =? 3) then flat_map (fun m => map (fun i => (slot_at m (Width i), ln (dlag / 2))) (seq 0 ng)) (seq 0 nlines) else []) f.
Proof. unfold fix_widths. destruct (_ && _); [|reflexivity]. rewrite fix_each_list, (each_slot 2 Width); [reflexivity|]. intros i. cbn [offset]. lia. Qed.

(** what all the set-up functions have in common *)
Lemma lists_spec widths (L := list_con ++ list_lines widths) f s :
  (forall s, s < nvar -> (In s (map fst L) <-> flag_con_sys_err = false /\ s mod 3 = 0) /\
     (In s (map fst L) -> fix_val (fixes L f) s = 0%R)) /\
  (forall m r, m < nlines -> role_ok ng r ->
     (In (slot_at m r) (map fst L) <-> line_value widths r <> None) /\
     (forall v, line_value widths r = Some v -> fix_val (fixes L f) (slot_at m r) = v)) /\
  (In s (map fst L) -> s < np).
Proof.
  assert (mem : forall s, In s (map fst L) <-> exists v, In (s, v) L).
  { intros x. rewrite in_map_iff. split; [intros ([a v] & E & H); cbn in E; subst; eauto|intros (v & H); exists (x, v); auto]. }
  assert (InL : forall s v, In (s, v) L <-> (flag_con_sys_err = false /\ v = 0%R /\ s < nvar /\ s mod 3 = 0) \/
     exists m r, m < nlines /\ role_ok ng r /\ s = slot_at m r /\ line_value widths r = Some v).
  { intros x v. unfold L. rewrite in_app_iff, in_list_con, in_list_lines. tauto. }
  split; [|split].
  - intros x Hx. assert (only : forall v, In (x, v) L <-> flag_con_sys_err = false /\ v = 0%R /\ x mod 3 = 0).
    { intros v. rewrite InL. split; [|tauto]. intros [H|(m & r & Hm & Hr & E & _)]; [tauto|].
      pose proof (slot_at_lt nset nlset ng uniform uniform_var m r Hm Hr). lia. }
    split.
    + rewrite mem. split; [intros (v & H); apply only in H; tauto|intros H; exists 0%R; apply only; tauto].
    + intros H. destruct (fixes_spec L f x) as (_ & _ & C). apply C; [exact H|]. intros w Hw. apply only in Hw. tauto.
  - intros m r Hm Hr. assert (only : forall v, In (slot_at m r, v) L <-> line_value widths r = Some v).
    { intros v. rewrite InL. split.
      - intros [(_ & _ & H & _)|(m' & r' & Hm' & Hr' & E & H)]; [pose proof (slot_at_lt nset nlset ng uniform uniform_var m r Hm Hr); lia|].
        apply slot_at_inj in E; auto. destruct E as [_ ->]. exact H.
      - intros H. right. exists m, r. auto. }
    split.
    + rewrite mem. split; [intros (v & H); apply only in H; congruence|].
      destruct (line_value widths r) as [v|] eqn:E; [|congruence]. intros _. exists v. apply only. reflexivity.
    + intros v Hv. destruct (fixes_spec L f (slot_at m r)) as (_ & _ & C). apply C; [apply mem; exists v; apply only; exact Hv|].
      intros w Hw. apply only in Hw. congruence.
  - rewrite mem. intros (v & H). apply InL in H. destruct H as [(_ & _ & H & _)|(m & r & Hm & Hr & -> & _)].
    + unfold num_params. lia.
    + apply slot_at_lt; assumption.
Qed.

(** The fixed parameters of a full set-up. *)
Definition fixed_as (ties widths : bool) (f : fixed) : Prop :=
  (forall s, s < nvar -> (is_fixed f s = true <-> flag_con_sys_err = false /\ s mod 3 = 0) /\ (is_fixed f s = true -> fix_val f s = 0%R)) /\
  (forall m r, m < nlines -> role_ok ng r ->
     (is_fixed f (slot_at m r) = true <-> line_value widths r <> None \/ exists b, tied ties (slot_at m r) b) /\
     (~ (exists b, tied ties (slot_at m r) b) -> forall v, line_value widths r = Some v -> fix_val f (slot_at m r) = v)).
Lemma fixed_as_tied widths f : f = fixes (list_con ++ list_lines widths) none_fixed -> fixed_as true widths (fixes list_tied f).
Proof.
  intros ->. set (f0 := none_fixed). destruct (lists_spec widths f0 0) as (A & B & _). split.
  - intros s Hs. destruct (fixes_spec list_tied (fixes (list_con ++ list_lines widths) f0) s) as (F & G & _).
    assert (nt : ~ In s (map fst list_tied)).
    { rewrite in_list_tied. intros (b & _ & _ & i & j & r & Hi & [Hl Hl'] & Hr & _ & -> & _).
      pose proof (slot_at_lt nset nlset ng uniform uniform_var (line_no nlset uniform i j) r (line_no_lt _ _ _ _ _ Hl Hl') Hr) as K. unfold ParamSpec.slot in Hs. lia. }
    rewrite F, G by exact nt. destruct (fixes_spec (list_con ++ list_lines widths) f0 s) as (F0 & _ & _). rewrite F0.
    destruct (A s Hs) as [A1 A2]. cbn [f0 none_fixed is_fixed]. rewrite A1. split; [intuition congruence|].
    intros [[?|H]|H]; [discriminate|apply A2; rewrite A1; exact H|contradiction].
  - intros m r Hm Hr. destruct (fixes_spec list_tied (fixes (list_con ++ list_lines widths) f0) (slot_at m r)) as (F & G & _).
    destruct (B m r Hm Hr) as [B1 B2]. destruct (fixes_spec (list_con ++ list_lines widths) f0 (slot_at m r)) as (F0 & _ & _).
    rewrite F, F0, B1, in_list_tied. split; [cbn [f0 none_fixed is_fixed]; intuition congruence|].
    intros Hn v Hv. rewrite G by (rewrite in_list_tied; exact Hn). apply B2. exact Hv.
Qed.
Theorem set_fixed_line_spec : exists f, set_fixed_line nset nlset ng uniform uniform_var flag_con_sys_err flag_line_sys_err type_lag_prior type_tf lag_limit_low lag_limit_upper idxs = Ok f /\ fixed_as true true f.
Proof.
  unfold set_fixed_line. rewrite fix_tied_list. eexists. split; [reflexivity|]. apply (fixed_as_tied true).
  rewrite fix_con_list, fix_line_list, fix_lags_list, fix_widths_list, !fixes_app. reflexivity.
Qed.
Theorem set_fixed_mmap_spec : exists f, set_fixed_mmap nset nlset ng uniform uniform_var flag_con_sys_err flag_line_sys_err type_lag_prior lag_limit_low lag_limit_upper idxs = Ok f /\ fixed_as true false f.
Proof.
  unfold set_fixed_mmap. rewrite fix_tied_list. eexists. split; [reflexivity|]. apply (fixed_as_tied false).
  rewrite fix_con_list, fix_line_list, fix_lags_list, !fixes_app. unfold list_con, list_lines. cbn [andb]. rewrite app_nil_r. reflexivity.
Qed.
End FixedProofs.
