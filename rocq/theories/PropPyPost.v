(** Property C117: postprocess.py and the program's own post-processing give
    the same weights and the same evidence. *)
From Coq Require Import Reals ZArith List Bool Lia Lra Psatz Arith Permutation Sorting.Sorted.
From Verif Require Import CPrelude ListLemmas SortModel SortProofs LogXProofs PostModel PostProofs PostProofs2 PropPost PyPostModel PyPostProofs.
Import ListNotations.
Open Scope R_scope.

(** The likelihoods of the levels do not fall. *)
Definition rising (levels : list plevel) : Prop :=
  forall i a b, nth_error levels i = Some a -> nth_error levels (S i) = Some b -> pl_logL a <= pl_logL b.

(** No sample stands at a level: one with the likelihood of a level has a
    smaller tiebreaker. *)
Definition off_levels (levels : list plevel) (tbs : list R) (info : list sinfo) : Prop :=
  forall s i l t, In s info -> nth_error levels i = Some l -> nth_error tbs i = Some t ->
    si_logl s = pl_logL l -> si_tb s < t.

(** The sums are the same. *)
Lemma finish_same : forall T info vals P logp0, Forall2 agrees vals P -> info <> [] -> length vals = length info ->
  mapM real_of (map snd vals) = Ok logp0 ->
  exists q, py_finish T info P = Ok q /\
    let logl := map (fun s => si_logl s / T) info in
    pp_logp q = lsub (ln (sumR exp logp0)) logp0 /\
    pp_logz q = ln (sumR exp (map (fun x => fst x + snd x) (combine (pp_logp q) logl))) /\
    pp_logP q = lsub (pp_logz q) (map (fun x => fst x + snd x) (combine (pp_logp q) logl)) /\
    pp_weights q = map exp (pp_logP q) /\
    pp_H q = - pp_logz q + sumR (fun x => exp (fst x) * snd x) (combine (pp_logP q) logl) /\
    pp_ESS q = exp (- sumR (fun v => exp v * ln (exp v + / IZR (10 ^ 300))) (pp_logP q)) /\
    pp_logx q = map fst P /\ sumR exp (pp_logP q) = 1 /\ length (pp_logP q) = length info.
Proof.
  intros T info vals P logp0 A NI LV E. unfold py_finish. rewrite (agrees_snd _ _ A), E. cbn [bind].
  assert (IP : (0 < length info)%nat) by (destruct info; [congruence|simpl; lia]).
  assert (LL : length logp0 = length vals).
  { pose proof (mapM_nth _ _ _ _ _ E) as M. revert E. clear. revert logp0. induction vals as [|v vals IH]; intros lp E; simpl in E.
    - injection E as <-. reflexivity.
    - destruct (real_of (snd v)); try discriminate. cbn [bind] in E. destruct (mapM real_of (map snd vals)) eqn:F; try discriminate.
      cbn [bind] in E. injection E as <-. simpl. f_equal. auto. }
  assert (NL : logp0 <> []) by (intros ->; simpl in LL; lia).
  rewrite py_logsumexp_ok, logsumexp_ok by exact NL. cbn [bind].
  set (logl := map (fun s => si_logl s / T) info).
  change (map (fun v => v - ln (sumR exp logp0)) logp0) with (lsub (ln (sumR exp logp0)) logp0).
  set (logp := lsub (ln (sumR exp logp0)) logp0).
  set (logP0 := map (fun x => fst x + snd x) (combine logp logl)).
  assert (P0 : length logP0 = length info).
  { unfold logP0, logp, lsub, logl. rewrite map_length, combine_length, !map_length. lia. }
  assert (NP : logP0 <> []) by (intros X; rewrite X in P0; simpl in P0; lia).
  rewrite py_logsumexp_ok, logsumexp_ok by exact NP. cbn [bind].
  change (map (fun v => v - ln (sumR exp logP0)) logP0) with (lsub (ln (sumR exp logP0)) logP0).
  pose proof (lsub_sum1 logP0 NP) as S1. set (logz := ln (sumR exp logP0)) in *.
  assert (LP : length (lsub logz logP0) = length info) by (unfold lsub; rewrite map_length; exact P0).
  set (logP := lsub logz logP0) in *.
  eexists. split; [reflexivity|]. cbn [pp_logp pp_logP pp_logz pp_weights pp_H pp_ESS pp_logx].
  assert (NS : np_sum (map exp logP) = 1) by (rewrite np_sum_ok, sumR_map; exact S1).
  rewrite NS.
  assert (W : map (fun v => v / 1) (map exp logP) = map exp logP).
  { rewrite map_map. apply map_ext. intros. field. }
  rewrite W. repeat split; auto.
  - f_equal. rewrite np_sum_ok, sumR_map. generalize logl. clear. induction logP as [|a l IH]; intros [|b m]; simpl; auto.
    rewrite IH. reflexivity.
  - f_equal. f_equal. rewrite np_sum_ok, !sumR_map. reflexivity.
Qed.

Lemma weights_same : forall u g T levels tbs info, admissible levels info -> length tbs = length levels ->
  rising levels -> off_levels levels tbs info ->
  exists p q, postprocess T levels info = Ok p /\ py_postprocess u g T levels tbs info = Ok q /\
    pp_logp q = po_logp p /\ pp_logP q = po_logP p /\ pp_weights q = map exp (po_logP p) /\
    pp_logz q = po_logz p /\ pp_H q = po_H p /\
    (forall k x, mass_is p k x -> nth_error (pp_logx q) k = Some (Some x)) /\
    pp_ESS q = exp (- sumR (fun v => exp v * ln (exp v + / IZR (10 ^ 300))) (po_logP p)) /\
    po_ESS p = exp (sumR (fun v => - v * exp v) (po_logP p)) /\ length (po_logP p) = length info.
Proof.
  intros u g T levels tbs info AD LT RS OFF. pose proof (admissible_wf _ _ AD) as W.
  destruct (post_main T levels info W) as (p & sw0 & lp & EP & F). exists p.
  assert (EP' := EP). unfold postprocess in EP'.
  set (cl := map (clamp_level (length levels)) info) in *.
  assert (SW : mapM (py_sandwich levels tbs) cl = mapM (sandwich levels) cl).
  { unfold cl. assert (G : forall s, In s info -> py_sandwich levels tbs (clamp_level (length levels) s) = sandwich levels (clamp_level (length levels) s)).
    { intros s I. apply py_sandwich_ok; auto; [apply (wf_levels _ _ W)|apply (wf_level _ _ W s I)|].
      intros i l t A B C. exact (OFF s i l t I A B C). }
    revert G. clear. induction info as [|s info IH]; intros G; [reflexivity|]. simpl. rewrite G by (simpl; auto).
    rewrite IH by (intros; apply G; simpl; auto). reflexivity. }
  unfold py_postprocess. fold cl. rewrite SW, py_levels_id.
  destruct (mapM (sandwich levels) cl) as [sw| | |] eqn:E1; try discriminate. cbn [bind] in *.
  destruct (foldM (do_level levels sw cl) (seq 0 (length levels)) (repeat None (length cl))) as [arr| | |] eqn:E2; try discriminate.
  assert (SB : forall i, In i (seq 0 (length levels)) -> (i < length levels)%nat) by (intros i I; apply in_seq in I; lia).
  destruct (py_loop levels info cl sw W _ _ _ _ SB (start_rel (length cl)) E2) as (P & E3 & R3).
  rewrite E3. cbn [bind] in *.
  destruct (mapM initialised arr) as [vals| | |] eqn:E4; try discriminate. cbn [bind] in *.
  destruct (mapM real_of (map snd vals)) as [logp0| | |] eqn:E5; try discriminate. cbn [bind] in *.
  pose proof (rel_vals _ _ R3 _ E4) as AG.
  assert (NC : cl <> []) by (unfold cl; pose proof (wf_info _ _ W); destruct info; [congruence|discriminate]).
  assert (CL : length cl = length info) by (apply map_length).
  assert (FX : po_logx p = map fst vals /\ po_logp p = lsub (ln (sumR exp logp0)) logp0 /\ length vals = length cl).
  { assert (NL : logp0 <> []).
    { intros ->. simpl in EP'. discriminate. }
    rewrite logsumexp_ok in EP' by exact NL. cbn [bind] in EP'.
    match type of EP' with bind ?a _ = _ => destruct a; try discriminate end. cbn [bind] in EP'.
    match type of EP' with bind ?a _ = _ => destruct a; try discriminate end. cbn [bind] in EP'.
    injection EP' as <-. cbn [po_logx po_logp]. repeat split. rewrite CL. pose proof (pf_lenx _ _ _ _ _ _ F) as LX.
    cbn [po_logx] in LX. rewrite map_length in LX. exact LX. }
  destruct FX as (FX & FP & LV).
  destruct (finish_same T cl vals P logp0 AG NC LV E5) as (q & EQ & Q1 & Q2 & Q3 & Q4 & Q5 & Q6 & Q7 & Q8 & Q9).
  exists q. split; [exact EP|]. split; [exact EQ|].
  assert (ML : map (fun s => si_logl s / T) cl = po_logl p).
  { unfold cl. rewrite map_clamp_logl. symmetry. apply (pf_logl _ _ _ _ _ _ F). }
  rewrite ML in *. rewrite <- FP in Q1.
  assert (Z : pp_logz q = po_logz p) by (rewrite Q2, Q1; symmetry; apply (pf_logz _ _ _ _ _ _ F)).
  assert (LP : pp_logP q = po_logP p) by (rewrite Q3, Z, Q1; symmetry; apply (pf_logP _ _ _ _ _ _ F)).
  rewrite LP in *.
  repeat split; auto.
  - rewrite Q5, Z. symmetry. apply (pf_H _ _ _ _ _ _ F).
  - intros k x M. unfold mass_is in M. rewrite FX in M. rewrite Q7. clear - AG M.
    revert k M. induction AG as [|v w vals P [_ A] AG IH]; intros k M; [destruct k; discriminate|].
    destruct k as [|k]; simpl in *; [|auto]. injection M as M. destruct A as [A|A]; rewrite M in A; [discriminate|]. rewrite A. reflexivity.
  - apply (pf_ESS _ _ _ _ _ _ F).
  - lia.
Qed.

(** The normalised prior and posterior weights, the evidence and the
    information are those of the C code, and so are the prior masses wherever
    that code has a number. *)
Theorem C117_same : forall u g T levels tbs info, admissible levels info -> length tbs = length levels ->
  rising levels -> off_levels levels tbs info ->
  exists p q, postprocess T levels info = Ok p /\ py_postprocess u g T levels tbs info = Ok q /\
    pp_logp q = po_logp p /\ pp_logP q = po_logP p /\ pp_weights q = map exp (po_logP p) /\
    pp_logz q = po_logz p /\ pp_H q = po_H p /\
    (forall k x, mass_is p k x -> nth_error (pp_logx q) k = Some (Some x)).
Proof.
  intros u g T levels tbs info AD LT RS OFF.
  destruct (weights_same u g T levels tbs info AD LT RS OFF) as (p & q & A1 & A2 & A3 & A4 & A5 & A6 & A7 & A8 & _).
  exists p, q. repeat split; auto.
Qed.

(** The effective sample size is at most that of the C code, and smaller by no
    more than a factor exp(-n/1e300). *)
Theorem C117_effective : forall u g T levels tbs info p q, admissible levels info -> length tbs = length levels ->
  rising levels -> off_levels levels tbs info ->
  postprocess T levels info = Ok p -> py_postprocess u g T levels tbs info = Ok q ->
  po_ESS p * exp (- (INR (length info) / IZR (10 ^ 300))) <= pp_ESS q <= po_ESS p.
Proof.
  intros u g T levels tbs info p q AD LT RS OFF EP EQ.
  destruct (weights_same u g T levels tbs info AD LT RS OFF) as (p' & q' & A1 & A2 & _ & _ & _ & _ & _ & _ & A3 & A4 & A5).
  rewrite EP in A1. injection A1 as <-. rewrite EQ in A2. injection A2 as <-. rewrite A3, A4, <- A5.
  assert (EP0 : 0 < / IZR (10 ^ 300)) by (apply Rinv_0_lt_compat, IZR_lt; reflexivity).
  unfold Rdiv. set (e := / IZR (10 ^ 300)) in *. clearbody e. generalize (po_logP p). intros l.
  assert (B : forall v, exp v * v <= exp v * ln (exp v + e) <= exp v * v + e).
  { intros v. pose proof (exp_pos v) as V.
    assert (X : 0 < 1 + e * exp (- v)) by (pose proof (exp_pos (- v)); nra).
    assert (Y : exp v + e = exp v * (1 + e * exp (- v))).
    { rewrite exp_Ropp. field. lra. }
    assert (Z : ln (exp v + e) = v + ln (1 + e * exp (- v))) by (rewrite Y, ln_mult, ln_exp by auto; reflexivity).
    rewrite Z. split.
    - assert (0 <= ln (1 + e * exp (- v))); [|nra]. rewrite <- ln_1. left. apply ln_increasing; [lra|].
      pose proof (exp_pos (- v)); nra.
    - destruct (ln_le_minus1 _ X) as [K _].
      assert (exp v * ln (1 + e * exp (- v)) <= exp v * (e * exp (- v))) by (apply Rmult_le_compat_l; lra).
      replace (exp v * (e * exp (- v))) with e in H by (rewrite exp_Ropp; field; lra). lra. }
  assert (LO : sumR (fun v => - v * exp v) l - INR (length l) * e <= - sumR (fun v => exp v * ln (exp v + e)) l <= sumR (fun v => - v * exp v) l).
  { induction l as [|v l IH]; [simpl; lra|]. cbn [length sumR]. rewrite S_INR. pose proof (B v). lra. }
  assert (EX : forall a b, a <= b -> exp a <= exp b).
  { intros a b [L| ->]; [left; apply exp_increasing; exact L|right; reflexivity]. }
  rewrite <- exp_plus. split; apply EX; lra.
Qed.

(** A case with three samples in two levels meeting the hypotheses. *)
Example C117_case : let levels := [mkpl 0 (-5); mkpl (-1) 1] in
  let info := [mksi 0 (-2) (1/4); mksi 0 3 (1/2); mksi 1 1 (1/8)] in
  admissible levels info /\ length [0; 1/3] = length levels /\ rising levels /\ off_levels levels [0; 1/3] info /\
  in_level levels info 1 1.
Proof.
  cbv zeta. assert (BIG : 2 < IZR (10 ^ 300)) by (apply IZR_lt; reflexivity).
  repeat split; try discriminate.
  - intros [|[|[|i]]] a b A B; try discriminate. injection A as <-. injection B as <-. simpl. lra.
  - intros l [<-|[<-|[]]]; simpl; lra.
  - intros s [<-|[<-|[<-|[]]]]; simpl; lia.
  - intros [|[|[|i]]] a b A B; try discriminate. injection A as <-. injection B as <-. simpl. lra.
  - intros s [|[|[|i]]] l t I A B; try discriminate; injection A as <-; injection B as <-;
      destruct I as [<-|[<-|[<-|[]]]]; simpl; lra.
  - eexists. split; [reflexivity|]. unfold sits. simpl. repeat split; [lia|lia| |].
    + right. eexists. split; [reflexivity|]. simpl. lra.
    + intros [|[|[|j]]] l J A; [lia|lia|discriminate..].
Qed.

(** * Samples at a level *)
Lemma two_weights : forall top bottom j, bottom < top -> (j < 2)%nat ->
  exp (rightv top bottom 2 j) - exp (leftv top bottom 2 j) = 2 / 3 * (exp top - exp bottom).
Proof.
  intros top bottom j H J. unfold rightv, leftv. destruct j as [|[|j]]; [| |lia]; cbn [Nat.eqb Nat.sub Nat.add];
  rewrite xval_exp by (auto; lia); simpl; field.
Qed.

Definition tie_levels : list plevel := [mkpl 0 0; mkpl (-1) 1].
Definition tie_info : list sinfo := [mksi 0 1 (1/2); mksi 1 2 (1/4)].

Lemma tie_admissible : admissible tie_levels tie_info.
Proof.
  assert (BIG : 2 < IZR (10 ^ 300)) by (apply IZR_lt; reflexivity).
  repeat split; try discriminate.
  - intros [|[|[|i]]] a b A B; try discriminate. injection A as <-. injection B as <-. simpl. lra.
  - intros l [<-|[<-|[]]]; simpl; lra.
  - intros s [<-|[<-|[]]]; simpl; lia.
Qed.

Lemma tie_clamped : map (clamp_level (length tie_levels)) tie_info = tie_info.
Proof. reflexivity. Qed.

(** The program puts the first sample into the lower level. *)
Lemma tie_c : exists p a b, postprocess 1 tie_levels tie_info = Ok p /\ po_logp p = [a; b] /\ b < a.
Proof.
  assert (BIG : 2 < IZR (10 ^ 300)) by (apply IZR_lt; reflexivity).
  destruct (post_main 1 tie_levels tie_info (admissible_wf _ _ tie_admissible)) as (p & sw & lp & EP & F).
  pose proof (pf_sw _ _ _ _ _ _ F) as SW. pose proof (pf_len _ _ _ _ _ _ F) as LL.
  inversion SW as [|s0 i0 ? sw1 S0 SW1]; subst. inversion SW1 as [|s1 i1 ? sw2 S1 SW2]; subst. inversion SW2; subst.
  assert (i0 = 0)%nat as ->.
  { eapply sits_unique; [exact S0|]. split; [cbn; lia|]. split; [left; reflexivity|].
    intros [|[|[|j]]] l J E; try lia; try discriminate. injection E as <-. simpl. lra. }
  assert (i1 = 1)%nat as ->.
  { eapply sits_unique; [exact S1|]. split; [cbn; lia|]. split; [left; reflexivity|].
    intros [|[|[|j]]] l J E; try lia; try discriminate. }
  destruct (pf_entry _ _ _ _ _ _ F 0%nat (mkpl 0 0) eq_refl 0%nat (mkm 1 (1/2) 0) eq_refl) as [_ A].
  destruct (pf_entry _ _ _ _ _ _ F 1%nat (mkpl (-1) 1) eq_refl 0%nat (mkm 2 (1/4) 1) eq_refl) as [_ B].
  destruct lp as [|x [|y [|z lp]]]; try discriminate. clear LL.
  cbn [nth_error m_id] in A, B. injection A as A. injection B as B.
  exists p. pose proof (pf_logp _ _ _ _ _ _ F) as LP. cbn [lsub map] in LP.
  eexists. eexists. split; [exact EP|]. split; [exact LP|].
  apply Rplus_lt_compat_r. rewrite A, B. apply Rplus_lt_compat_l.
  unfold rightv, leftv, bottom_of, members, tie_levels. cbn [Nat.eqb length Nat.sub nth_error pl_logX map clamp_level tie_info combine seq flat_map app].
  cbn -[exp ln IZR Z.pow].
  assert (E1 : exp (- IZR (10 ^ 300)) < exp (-1)) by (apply exp_increasing; lra).
  apply ln_increasing; [lra|]. pose proof (exp_pos (- IZR (10 ^ 300))). rewrite exp_0.
  assert (exp (-1) < / 2); [|lra]. replace (-1) with (Ropp 1) by lra. rewrite exp_Ropp. apply Rinv_lt_contravar.
  - pose proof (exp_pos 1). nra.
  - pose proof (exp_ineq1 1 ltac:(lra)). lra.
Qed.

(** postprocess.py puts both into the upper one. *)
Lemma tie_py : forall u g, exists q a, py_postprocess u g 1 tie_levels [0; 1/2] tie_info = Ok q /\ pp_logp q = [a; a].
Proof.
  intros u g. pose proof (admissible_wf _ _ tie_admissible) as W.
  unfold py_postprocess. rewrite tie_clamped, py_levels_id.
  assert (E : mapM (py_sandwich tie_levels [0; 1/2]) tie_info = Ok [1%nat; 1%nat]).
  { unfold tie_info, mapM, py_sandwich. cbn -[py_exceeds]. unfold py_exceeds. cbn [fst snd].
    destruct (Req_EM_T 1 1); [|lra]. destruct (Req_EM_T (1 / 2) (1 / 2)); [|lra]. reflexivity. }
  rewrite E. cbn [bind].
  destruct (levels_loop tie_levels tie_info tie_info [1; 1]%nat W eq_refl) as (arr & E2 & AL & AE).
  assert (SB : forall i, In i (seq 0 (length tie_levels)) -> (i < length tie_levels)%nat) by (intros i I; apply in_seq in I; lia).
  destruct (py_loop tie_levels tie_info tie_info [1; 1]%nat W _ _ _ _ SB (start_rel (length tie_info)) E2) as (P & E3 & R3).
  rewrite E3. cbn [bind].
  assert (BL := bottom_lt tie_levels tie_info 1 (mkpl (-1) 1) W eq_refl).
  set (w := ln (1 / 2) + ln (2 / 3 * (exp (-1) - exp (bottom_of tie_levels 1)))).
  assert (G : forall m, In m (members [1; 1]%nat tie_info 1) -> exists x, nth_error arr (m_id m) = Some (Some (x, Some w))).
  { intros m I. assert (IS : In m (sorted_members [1; 1]%nat tie_info 1)).
    { eapply Permutation_in; [apply Permutation_sym, msort_perm|exact I]. }
    apply In_nth_error in IS. destruct IS as [j IS].
    assert (J : (j < 2)%nat).
    { apply nth_error_lt in IS. rewrite sorted_len in IS. exact IS. }
    specialize (AE 1%nat (mkpl (-1) 1) eq_refl j m IS). rewrite AE. unfold entry. cbn [fst snd pl_logX].
    change (length (members [1; 1]%nat tie_info 1)) with 2%nat.
    rewrite two_weights by (auto; exact BL). eexists. reflexivity. }
  destruct (G (mkm 1 (1/2) 0)) as (x0 & G0); [simpl; auto|].
  destruct (G (mkm 2 (1/4) 1)) as (x1 & G1); [simpl; auto|]. cbn [m_id] in G0, G1.
  destruct arr as [|a0 [|a1 [|a2 arr]]]; try discriminate. cbn [nth_error] in G0, G1.
  injection G0 as ->. injection G1 as ->.
  destruct (finish_same 1 tie_info [(x0, Some w); (x1, Some w)] P [w; w]) as (q & EQ & Q1 & _).
  - eapply rel_vals; [exact R3|reflexivity].
  - discriminate.
  - reflexivity.
  - reflexivity.
  - exists q. eexists. split; [exact EQ|]. exact Q1.
Qed.

(** The two disagree on a sample that stands at a level, as the one the level
    was made from does: the program puts it below the level, Python above. *)
Theorem C117_ties_refuted : exists levels tbs info,
  admissible levels info /\ length tbs = length levels /\ rising levels /\
  exists p, postprocess 1 levels info = Ok p /\
  forall u g, exists q, py_postprocess u g 1 levels tbs info = Ok q /\ pp_logp q <> po_logp p.
Proof.
  exists tie_levels, [0; 1/2], tie_info. split; [exact tie_admissible|]. split; [reflexivity|]. split.
  - intros [|[|[|i]]] a b A B; try discriminate. injection A as <-. injection B as <-. simpl. lra.
  - destruct tie_c as (p & a & b & E1 & E2 & E3). exists p. split; [exact E1|]. intros u g.
    destruct (tie_py u g) as (q & c & E4 & E5). exists q. split; [exact E4|]. rewrite E2, E5. intros X.
    injection X as X1 X2. lra.
Qed.

Print Assumptions C117_same.
Print Assumptions C117_effective.
Print Assumptions C117_ties_refuted.
