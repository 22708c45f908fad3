(** C78: the damping time in the virtual mode. *)
From Coq Require Import Reals ZArith List Bool Arith Lia Lra.
From Flocq Require Import Core BinarySingleNaN.
From Verif Require Import CPrelude ListLemmas SemisepModel SemisepProofs CovProofs ParamModel ParamSpec ParamProofs ParamProofs2 ParamProofs4 DampModel.
Import ListNotations.
Open Scope nat_scope.

(** what C11 Annex F says of pow(x, 2) and exp(x) *)
Definition annex_f (pow : b64 -> b64 -> b64) (exp : b64 -> b64) : Prop :=
  (forall s, pow (B754_infinity s) two = B754_infinity false) /\ pow B754_nan two = B754_nan /\ exp B754_nan = B754_nan.

Lemma over_zero x : fdiv x zero = B754_nan \/ exists s, fdiv x zero = B754_infinity s.
Proof. destruct x as [s|s| |s m e H]; cbn; eauto. Qed.
Lemma logH_nan pow exp x x' mean : annex_f pow exp -> move_logH pow mean zero x x' = B754_nan.
Proof.
  intros (P1 & P2 & _). unfold move_logH. cbv zeta.
  destruct (over_zero (fsub x mean)) as [E|(s & E)]; rewrite E.
  - rewrite P2. reflexivity.
  - rewrite P1. destruct (over_zero (fsub x' mean)) as [E'|(s' & E')]; rewrite E'; [rewrite P2|rewrite P1]; reflexivity.
Qed.
Lemma nan_not_taken exp u threshold logl : exp B754_nan = B754_nan -> move_taken exp u B754_nan threshold logl = false.
Proof. intros E. unfold move_taken. change (Bltb zero B754_nan) with false. cbv iota zeta. rewrite E. destruct u; reflexivity. Qed.

Section Vmap.
Variable nset : nat.
Variable nlset : nat -> nat.
Variable ng : nat.
Variable uniform : nat.
Variable uniform_var : bool.
Notation nvar := (num_params_var nset uniform_var).
Notation idxs := (set_idx_line_pm nset nlset ng uniform uniform_var unset).

Lemma damping_free (sys : bool) fx i : i < nset -> (forall i, i < nset -> 0 < nlset i) ->
  set_fixed_vmap nset nlset ng uniform uniform_var sys idxs = Ok fx -> is_fixed fx (idx_con_pm uniform_var i + 2) = false.
Proof.
  intros Hi Hl E. unfold set_fixed_vmap in E. cbv zeta in E.
  set (L1 := flat_map (fun k => [(1 + k * 3, ln 0.1)]) (seq 0 (iters (nvar - 1) 3))).
  assert (E1 : for_ 0 (iters (nvar - 1) 3) (fun k f => fix_at (1 + k * 3) (ln 0.1) f) none_fixed = fixes L1 none_fixed) by (unfold L1; rewrite <- for_fixes; reflexivity).
  rewrite E1 in E. clear E1.
  set (L2 := flat_map (fun i => [(ParamSpec.slot nset nlset ng uniform uniform_var i 0 (Centre 0), 0%R)]) (seq 0 nset)).
  assert (E2 : forall f, ofor 0 nset (fun i f => idx <- read_idx idxs i 0 ;; Ok (fix_at (idx + 2) 0 f)) f = Ok (fixes L2 f)).
  { intros f. unfold L2. rewrite <- for_fixes. apply ofor_ok. intros k s Hk. rewrite idx_line by (split; [lia|apply Hl; lia]). cbn [bind].
    rewrite fixes_cons. unfold ParamSpec.slot, ParamSpec.slot_at. cbn [offset Nat.mul Nat.add]. do 4 f_equal. lia. }
  rewrite E2 in E. cbn [bind] in E.
  set (L3 := flat_map (fun k => [(k * 3, ln 1)]) (seq 0 (iters nvar 3))).
  assert (E3 : forall f, for_ 0 (iters nvar 3) (fun k f => fix_at (k * 3) (ln 1) f) f = fixes L3 f) by (intros f; unfold L3; rewrite <- for_fixes; reflexivity).
  rewrite E3, fix_line_list, !fixes_app in E. injection E as <-. set (L4 := if sys then _ else _). set (L := L1 ++ _).
  destruct (is_fixed (fixes L none_fixed) (idx_con_pm uniform_var i + 2)) eqn:F; [|reflexivity].
  apply fixes_spec in F. destruct F as [F|F]; [discriminate|].
  assert (T : exists c, idx_con_pm uniform_var i = 3 * c /\ 3 * c + 2 < nvar).
  { unfold idx_con_pm, num_params_var. destruct uniform_var; [exists 0; lia|exists i; lia]. }
  destruct T as (c & Ec & Hc). rewrite Ec in F. apply in_map_iff in F. destruct F as ([s v] & Es & F). cbn [fst] in Es. subst s.
  unfold L, L4 in F. rewrite !in_app_iff in F. destruct F as [H|[H|[H|H]]].
  - unfold L1 in H. apply in_flat_map in H. destruct H as (k & _ & [H|[]]). injection H as H _. lia.
  - unfold L2 in H. apply in_flat_map in H. destruct H as (k & _ & [H|[]]). injection H as H _. unfold ParamSpec.slot, ParamSpec.slot_at in H. lia.
  - unfold L3 in H. apply in_flat_map in H. destruct H as (k & _ & [H|[]]). injection H as H _. lia.
  - destruct sys; [destruct H|]. apply in_flat_map in H. destruct H as (m & _ & [H|[]]). injection H as H _. unfold ParamSpec.slot_at in H. lia.
Qed.

(** Not true: "every free parameter can move".  In the virtual mode the damping time
    of every data set is free, but mean and spread of the continuum fit are still
    zero, so whatever its present and proposed values the log of the acceptance
    ratio is NaN, and no number u accepts the move. *)
Theorem C78_damping_refuted : forall sys fx i flag_postprc flag_decomp fit_mean fit_sd pow exp,
  i < nset -> (forall i, i < nset -> 0 < nlset i) ->
  set_fixed_vmap nset nlset ng uniform uniform_var sys idxs = Ok fx -> annex_f pow exp ->
  let s := idx_con_pm uniform_var i + 2 in
  let ran := runs_mc_con flag_postprc flag_decomp vmap in
  s < nvar /\ is_fixed fx s = false /\
  forall x x' u threshold logl,
    let logH := move_logH pow (var_start ran fit_mean s) (var_start ran fit_sd s) x x' in
    is_nan logH = true /\ move_taken exp u logH threshold logl = false.
Proof.
  intros sys fx i fp fd fm fs pow exp Hi Hl E A s ran. split; [|split].
  - unfold s, idx_con_pm, num_params_var. destruct uniform_var; lia.
  - apply (damping_free sys fx i Hi Hl E).
  - intros x x' u threshold logl logH.
    assert (L : logH = B754_nan) by (apply (logH_nan pow exp); exact A). rewrite L. split; [reflexivity|]. apply nan_not_taken. apply A.
Qed.
End Vmap.
Print Assumptions C78_damping_refuted.

(** The conditions can be met; and with a spread of one the same functions accept a
    move. *)
Definition pow_case (x _ : b64) : b64 := fmul x x.
Definition exp_case (x : b64) : b64 := match x with B754_nan => B754_nan | B754_infinity true => zero | B754_infinity false => x | _ => one end.
Example C78_case : annex_f pow_case exp_case /\
  (exists fx, set_fixed_vmap 2 (fun _ => 1) 2 0 false true (set_idx_line_pm 2 (fun _ => 1) 2 0 false unset) = Ok fx) /\
  (forall fp fd, runs_mc_con fp fd vmap = false) /\ runs_mc_con false false gmodel = true /\
  move_taken exp_case one (move_logH pow_case zero one one zero) zero one = true.
Proof.
  split; [split; [intros []; reflexivity|split; reflexivity]|]. split; [eexists; reflexivity|]. split; [reflexivity|]. split; [reflexivity|]. vm_compute. reflexivity.
Qed.
