(** Digits of the times in the files of reconstructed curves (C81, on the grids
    of C59). *)
From Coq Require Import ZArith Reals List Bool Lia Lra Sorted Arith.
From Verif Require Import CPrelude RecModel PropNorm SpanModel SpanProofs PropSpan.
Import ListNotations.
Open Scope R_scope.

Ltac tens := cbn [Z.add Z.sub Z.opp Pos.add Pos.succ Z.pos_sub Pos.pred_double Pos.sub Pos.sub_mask Z.succ_double Z.pred_double Z.double];
  unfold powerRZ; cbv [Pos.to_nat Pos.iter_op Nat.add]; cbn [pow]; lra.

Lemma sorted_in_order : forall t, StronglySorted Rlt t -> in_order t.
Proof.
  induction 1 as [|a t S IH F]; intros i j x y L A B; [destruct i; discriminate|].
  destruct j as [|j]; [lia|]. cbn in B. destruct i as [|i]; [|apply (IH i j); [lia|exact A|exact B]].
  cbn in A. injection A as <-. rewrite Forall_forall in F. apply Rlt_le, F. apply nth_error_In in B. exact B.
Qed.

(** The grid of the data set that holds the longest curve: no two of its times
    are printed alike, as long as they are not more than ten times as far from
    zero as the latest observation. *)
Theorem C81_grid : forall lowest sets d nd low upp s m n gs,
  In d sets -> spans lowest sets = Ok (s, m) -> 0 < s -> m <> 0 ->
  n_precision m s (Z.of_nat nd) = Ok n ->
  (exists c t t', In c (con_t d :: line_t d) /\ In t c /\ In t' c /\ t' - t = s) ->
  in_order (con_t d) -> con_t d <> [] ->
  (forall l, In l (line_t d) -> in_order l /\ l <> []) -> (2 <= nd)%nat -> low <= 0 -> 0 <= upp ->
  rec_times (con_t d) (line_t d) nd low upp = Ok gs ->
  forall g k k' x x' p p', In g gs -> k <> k' ->
    nth_error g k = Some (Some x) -> nth_error g k' = Some (Some x') ->
    Rabs x <= 10 * Rabs m -> Rabs x' <= 10 * Rabs m -> printed n x p -> printed n x' p' -> p <> p'.
Proof.
  intros lowest sets d nd low upp s m n gs Id Es S M En (c & t & t' & Ic & It & It' & Et) O L Ol ND LO UP Eg
    g k k' x x' p p' Ig K Ex Ex' Bx Bx' P P'.
  destruct (C59_grid (con_t d) (line_t d) nd low upp O L Ol ND) as (first & step & N & E & EN & SP & W).
  { exists t, t'. split; [apply in_concat; eauto|]. split; [apply in_concat; eauto|lra]. }
  rewrite E in Eg.
  match type of Eg with Ok ?r = _ => assert (Er : gs = r) by congruence end.
  rewrite Er in Ig. clear Er Eg. apply repeat_spec in Ig. subst g.
  assert (V : forall k x, nth_error (map (fun k => Some (first + INR k * step)) (seq 0 N)) k = Some (Some x) ->
    x = first + INR k * step).
  { intros j y H. rewrite nth_error_map in H. destruct (nth_error (seq 0 N) j) as [i|] eqn:Ei; [|discriminate].
    cbn in H. injection H as <-. assert (J : (j < N)%nat) by (rewrite <- (seq_length N 0); apply nth_error_Some; congruence).
    assert (i = j); [|subst; reflexivity].
    apply (nth_error_nth _ _ 0%nat) in Ei. rewrite seq_nth in Ei by exact J. lia. }
  apply V in Ex. apply V in Ex'. clear V.
  assert (N2 : (2 <= N <= nd)%nat) by (assert (con_t d <> [] -> 1 <= length (con_t d))%nat by (destruct (con_t d); cbn [length]; [congruence|lia]); specialize (H L); lia).
  destruct (W c t Ic It) as [W1 _]. destruct (W c t' Ic It') as [_ W2].
  assert (G : s < INR (N - 1) * step) by lra.
  assert (Q : s / IZR (Z.of_nat nd) < step).
  { rewrite <- INR_IZR_INZ. assert (0 < INR nd) by (apply lt_0_INR; lia).
    assert (INR (N - 1) <= INR nd) by (apply le_INR; lia).
    apply Rmult_lt_reg_r with (INR nd); [assumption|].
    replace (s / INR nd * INR nd) with s by (field; lra). nra. }
  apply (C81_distinct m s (Z.of_nat nd) n x x' p p'); try assumption; [lia|].
  subst x x'. replace (first + INR k' * step - (first + INR k * step)) with ((INR k' - INR k) * step) by ring.
  rewrite Rabs_mult, (Rabs_right step) by lra.
  assert (1 <= Rabs (INR k' - INR k)).
  { destruct (Nat.lt_total k k') as [H|[H|H]]; [|congruence|].
    - apply Nat.le_succ_l, le_INR in H. rewrite S_INR in H. rewrite Rabs_right; lra.
    - apply Nat.le_succ_l, le_INR in H. rewrite S_INR in H. rewrite Rabs_left; lra. }
  nra.
Qed.
Print Assumptions C81_grid.

(** One set over 10 days, 200 grid times requested: six digits. *)
Example C81_case : exists gs,
  spans (-1000) [mktimes [100; 104; 110] [[105; 109]]] = Ok (10, 110) /\
  n_precision 110 10 (Z.of_nat 200) = Ok 6%Z /\
  in_order [100; 104; 110] /\ in_order [105; 109] /\
  rec_times [100; 104; 110] [[105; 109]] 200 0 0 = Ok gs /\
  (forall g x, In g gs -> In (Some x) g -> Rabs x <= 10 * Rabs 110).
Proof.
  eexists. split; [|split; [|split; [|split; [|split]]]].
  - rewrite spans_flat. cbn [curves flat_map con_t line_t app foldM].
    rewrite span_of_ok by discriminate. cbn [bind]. rewrite span_of_ok by discriminate.
    unfold curve_span. cbn. do 2 f_equal; unfold Rmax; repeat destruct Rle_dec; lra.
  - unfold n_precision, int_log10. rewrite (Rabs_right 110) by lra. rewrite <- INR_IZR_INZ.
    replace (INR 200) with 200 by (rewrite INR_IZR_INZ; reflexivity).
    destruct Req_EM_T; [lra|]. cbn [bind Z.eqb Z.of_nat].
    destruct (Z.of_nat 200 =? 0)%Z eqn:E; [discriminate|].
    destruct Req_EM_T; [lra|]. cbn [bind].
    rewrite (floorZ_log10 110 2), (floorZ_log10 (10 / 200) (-2)); [reflexivity| |]; tens.
  - apply sorted_in_order. repeat constructor; lra.
  - apply sorted_in_order. repeat constructor; lra.
  - unfold rec_times, get, last_, get. cbn [nth_error bind length Nat.sub rec_span]. unfold last_, get.
    cbn [nth_error bind length Nat.sub fst snd]. rewrite Rmin_left, Rmax_left by lra. reflexivity.
  - intros g x Ig Ix. apply repeat_spec in Ig. subst g. change (rec_count 3 200) with 9%nat in Ix.
    apply in_map_iff in Ix. destruct Ix as (j & E & Ij). cbn [Nat.eqb] in E. injection E as <-.
    apply in_seq in Ij. assert (0 <= INR j <= 8).
    { split; [apply pos_INR|]. replace 8 with (INR 8) by (cbn; lra). apply le_INR. lia. }
    replace (INR 9) with 9 by (cbn; lra). rewrite Rabs_right, Rabs_right; lra.
Qed.

(** Only for that set: the grid of a set with much shorter curves can have
    neighbouring times that are printed alike. *)
Theorem C81_short_set_refuted : exists sets d s m n g,
  In d sets /\ (forall e, In e sets -> in_order (con_t e) /\ (2 <= length (con_t e))%nat /\ line_t e = []) /\
  spans (-1000) sets = Ok (s, m) /\ 0 < s /\ n_precision m s (Z.of_nat 200) = Ok n /\
  rec_times (con_t d) (line_t d) 200 0 0 = Ok [g] /\
  exists x x' p, nth_error g 0 = Some (Some x) /\ nth_error g 1 = Some (Some x') /\ x < x' /\
    0 < x /\ x' < m /\ printed n x p /\ printed n x' p.
Proof.
  exists [mktimes [55000; 56000] []; mktimes [55000; 55000.01] []], (mktimes [55000; 55000.01] []), 1000, 56000, 6%Z.
  eexists. split; [right; left; reflexivity|]. split; [|split; [|split; [lra|split; [|split]]]].
  - intros e [<-|[<-|[]]]; cbn [con_t line_t length]; (split; [|split; [lia|reflexivity]]);
      apply sorted_in_order; repeat constructor; lra.
  - rewrite spans_flat. cbn [curves flat_map con_t line_t app foldM].
    rewrite span_of_ok by discriminate. cbn [bind]. rewrite span_of_ok by discriminate.
    unfold curve_span. cbn. do 2 f_equal; unfold Rmax; repeat destruct Rle_dec; lra.
  - unfold n_precision, int_log10. rewrite (Rabs_right 56000) by lra. rewrite <- INR_IZR_INZ.
    replace (INR 200) with 200 by (rewrite INR_IZR_INZ; reflexivity).
    destruct Req_EM_T; [lra|]. cbn [bind].
    destruct (Z.of_nat 200 =? 0)%Z eqn:E; [discriminate|].
    destruct Req_EM_T; [lra|]. cbn [bind].
    rewrite (floorZ_log10 56000 4), (floorZ_log10 (1000 / 200) 0); [reflexivity| |]; tens.
  - unfold rec_times, get, last_, get. cbn [con_t line_t nth_error bind length Nat.sub rec_span fst snd repeat Nat.add].
    change (rec_count 2 200) with 6%nat. reflexivity.
  - cbn [seq map nth_error Nat.eqb]. eexists. eexists. exists 55000.
    split; [reflexivity|]. split; [reflexivity|].
    replace (INR 6) with 6 by (cbn; lra). cbn [INR].
    split; [lra|]. split; [lra|]. split; [lra|].
    split; right; exists 4%Z; rewrite Rabs_right by lra.
    + split; [tens|]. rewrite Rabs_right by lra. tens.
    + split; [tens|]. rewrite Rabs_left by lra. tens.
Qed.
Print Assumptions C81_short_set_refuted.
