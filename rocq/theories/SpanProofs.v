From Coq Require Import ZArith Reals List Bool Lia Lra Permutation Sorted Arith.
From Verif Require Import CPrelude SortModel SortProofs SpanModel.
Import ListNotations.
Open Scope R_scope.

Lemma at_in : forall A (l : list A) d i, (0 <= i < count l)%Z -> at_ l i = Ok (nth (Z.to_nat i) l d).
Proof.
  intros A l d i H. unfold at_, get, count in *. replace (i <? 0)%Z with false by (symmetry; apply Z.ltb_ge; lia).
  rewrite (nth_error_nth' l d) by lia. reflexivity.
Qed.

Lemma at_neg : forall A (l : list A) i, (i < 0)%Z -> at_ l i = UB.
Proof. intros A l i H. unfold at_. replace (i <? 0)%Z with true by (symmetry; apply Z.ltb_lt; lia). reflexivity. Qed.

Lemma at_first : forall A (a : A) l, at_ (a :: l) 0 = Ok a.
Proof. reflexivity. Qed.

Lemma at_last : forall A (l : list A) d, l <> [] -> at_ l (count l - 1) = Ok (last l d).
Proof.
  intros A l d H. destruct (exists_last H) as [l' [x E]]. subst l.
  rewrite (at_in _ _ d) by (unfold count; rewrite app_length; simpl; lia).
  rewrite last_last. unfold count. rewrite app_length. cbn [length].
  rewrite app_nth2 by lia. replace (_ - _)%nat with 0%nat by lia. reflexivity.
Qed.

Lemma ceilZ_eq : forall x n, IZR (n - 1) < x <= IZR n -> ceilZ x = n.
Proof.
  intros x n [H1 H2]. unfold ceilZ. rewrite minus_IZR in H1.
  assert (Int_part (- x) = (- n)%Z); [|lia].
  destruct (base_Int_part (- x)) as [B1 B2].
  assert (L1 : IZR (Int_part (-x)) < IZR (- n + 1)) by (rewrite plus_IZR, opp_IZR; lra).
  assert (L2 : IZR (- n - 1) < IZR (Int_part (-x))) by (rewrite minus_IZR, opp_IZR; lra).
  apply lt_IZR in L1. apply lt_IZR in L2. lia.
Qed.

Lemma ceilZ_le1 : forall x, x <= 1 -> (ceilZ x <= 1)%Z.
Proof.
  intros x H. unfold ceilZ. destruct (base_Int_part (- x)) as [B1 B2].
  assert (L2 : IZR (- 2) < IZR (Int_part (-x))) by lra. apply lt_IZR in L2. lia.
Qed.

Lemma intervals_length : forall t, length (intervals t) = (length t - 1)%nat.
Proof.
  induction t as [|a t IH]; [reflexivity|]. destruct t as [|b t]; [reflexivity|].
  cbn [intervals length] in *. lia.
Qed.

Fixpoint total (l : list R) : R := match l with [] => 0 | a :: r => a + total r end.

Lemma total_app : forall a b, total (a ++ b) = total a + total b.
Proof. induction a; intros; cbn; [lra|]. rewrite IHa. lra. Qed.

Lemma total_perm : forall a b, Permutation a b -> total a = total b.
Proof. induction 1; cbn; lra. Qed.

Lemma sum_down_ok : forall n pre large gap, length large = n ->
  sum_down (pre ++ large) (count (pre ++ large) - 1) n gap = Ok (gap + total large).
Proof.
  (* the loop walks over [large] from its end; generalise over what lies behind *)
  assert (G : forall n pre large post gap, length large = n ->
    sum_down ((pre ++ large) ++ post) (count (pre ++ large) - 1) n gap = Ok (gap + total large)).
  { induction n; intros pre large post gap L.
    - destruct large; [|discriminate]. cbn. f_equal. lra.
    - assert (N : large <> []) by (intro E; subst; discriminate).
      destruct (exists_last N) as [l' [x E]]. subst large.
      rewrite app_length in L. cbn in L.
      cbn [sum_down]. rewrite (at_in _ _ 0)
        by (unfold count; rewrite !app_length; cbn; lia).
      cbn [bind].
      replace (nth _ _ 0) with x.
      2:{ replace ((pre ++ l' ++ [x]) ++ post) with ((pre ++ l') ++ x :: post) by (rewrite <- !app_assoc; reflexivity).
          unfold count. rewrite app_nth2; rewrite !app_length; cbn [length]; [|lia].
          match goal with |- context [nth ?k _ _] => replace k with 0%nat by lia end. reflexivity. }
      replace (count (pre ++ l' ++ [x]) - 1 - 1)%Z with (count (pre ++ l') - 1)%Z
        by (unfold count; rewrite !app_length; cbn; lia).
      replace ((pre ++ l' ++ [x]) ++ post) with ((pre ++ l') ++ [x] ++ post)
        by (rewrite <- !app_assoc; reflexivity).
      rewrite IHn by lia. rewrite total_app. cbn. f_equal. lra. }
  intros. rewrite <- (app_nil_r (pre ++ large)) at 1. apply G. assumption.
Qed.

Lemma sum_down_out : forall n dt i gap, (-1 <= i)%Z -> (i + 1 < Z.of_nat n)%Z -> (i < count dt)%Z ->
  sum_down dt i n gap = UB.
Proof.
  induction n; intros dt i gap H0 H L; [lia|]. cbn [sum_down].
  destruct (Z_lt_ge_dec i 0) as [N|N]; [rewrite at_neg by lia; reflexivity|].
  rewrite (at_in _ _ 0) by lia. cbn [bind]. apply IHn; lia.
Qed.

Lemma sorted_intervals : forall l, StronglySorted Rle (msort cmpfunc l).
Proof.
  intro l. apply (msort_sorted cmpfunc (fun _ => True)); try (intros; unfold cmpfunc in *; repeat destruct Rlt_dec; lia || lra).
  - apply Forall_forall. trivial.
Qed.

Lemma SS_app : forall a b, StronglySorted Rle (a ++ b) ->
  forall x y, In x a -> In y b -> x <= y.
Proof.
  induction a as [|c a IH]; intros b H x y Ha Hb; [destruct Ha|].
  inversion H; subst. destruct Ha as [E|Ha].
  - subst. rewrite Forall_forall in H3. apply H3. apply in_or_app. auto.
  - apply (IH b); assumption.
Qed.

Lemma intervals_total : forall t, t <> [] -> total (intervals t) = last t 0 - hd 0 t.
Proof.
  induction t as [|a t IH]; intro N; [congruence|]. destruct t as [|b t]; [cbn; lra|].
  change (total (intervals (a :: b :: t))) with ((b - a) + total (intervals (b :: t))).
  rewrite IH by discriminate. cbn [last hd]. destruct t; cbn; lra.
Qed.

Lemma intervals_nonneg : forall t, StronglySorted Rle t -> Forall (Rle 0) (intervals t).
Proof.
  induction t as [|a t IH]; intro N; [constructor|]. destruct t as [|b t]; [constructor|].
  inversion N; subst.
  change (intervals (a :: b :: t)) with ((b - a) :: intervals (b :: t)). constructor; [|apply IH; assumption].
  inversion H2; subst. lra.
Qed.

Lemma total_nonneg : forall l, Forall (Rle 0) l -> 0 <= total l.
Proof. induction 1; cbn; lra. Qed.

Lemma last_in : forall (l : list R) d, l <> [] -> In (last l d) l.
Proof.
  intros l d H. destruct (exists_last H) as [l' [x E]]. subst. rewrite last_last. apply in_or_app. right. left. reflexivity.
Qed.

Lemma SS_hd : forall t x, StronglySorted Rle t -> In x t -> hd 0 t <= x.
Proof.
  intros t x S I. destruct t; [destruct I|]. inversion S; subst. cbn. destruct I; [subst; lra|].
  rewrite Forall_forall in H2. auto.
Qed.

Lemma SS_last : forall t x, StronglySorted Rle t -> In x t -> x <= last t 0.
Proof.
  intros t x S I. assert (N : t <> []) by (intro; subst; destruct I).
  destruct (exists_last N) as [l' [y E]]. subst. rewrite last_last.
  apply in_app_or in I. destruct I as [I|[I|[]]]; [|subst; lra].
  apply (SS_app _ _ S); [assumption|left; reflexivity].
Qed.

(** * Spans and cadences *)

Definition curve_span (c : list R) : R := last c 0 - hd 0 c.

Lemma at0 : forall c : list R, c <> [] -> at_ c 0 = Ok (hd 0 c).
Proof. destruct c; [congruence|]. reflexivity. Qed.

Lemma count0 : forall A (c : list A), (count c =? 0)%Z = true <-> c = [].
Proof. intros A [|a c]; unfold count; cbn; split; intro H; try congruence; try reflexivity; discriminate. Qed.

Lemma span_of_nil : forall st, span_of [] st = Ok st.
Proof. reflexivity. Qed.

Lemma span_of_ok : forall c st, c <> [] ->
  span_of c st = Ok (Rmax (fst st) (curve_span c), Rmax (snd st) (last c 0)).
Proof.
  intros c st N. unfold span_of. destruct (count c =? 0)%Z eqn:E; [apply count0 in E; congruence|].
  rewrite (at_last _ _ 0 N), (at0 _ N). cbn [bind]. fold (curve_span c). f_equal. f_equal.
  unfold Rmax. destruct Rlt_dec, Rle_dec; lra.
Qed.

Definition curves (sets : list times) : list (list R) :=
  flat_map (fun d => con_t d :: line_t d) sets.

Lemma foldM_app : forall A B (f : B -> A -> outcome B) l1 l2 b,
  foldM f (l1 ++ l2) b = (b' <- foldM f l1 b ;; foldM f l2 b').
Proof. induction l1; intros; cbn; [reflexivity|]. destruct (f b a); cbn; auto. Qed.

Lemma spans_flat : forall lowest sets,
  spans lowest sets = foldM (fun s c => span_of c s) (curves sets) (0, lowest).
Proof.
  intros lowest sets. unfold spans. generalize (0, lowest) as st.
  induction sets as [|d sets IH]; intro st; [reflexivity|].
  cbn [foldM]. unfold curves. cbn [flat_map]. fold (curves sets). rewrite foldM_app. cbn [foldM].
  destruct (span_of (con_t d) st); cbn [bind]; try reflexivity.
  destruct (foldM (fun s c => span_of c s) (line_t d) a); cbn [bind]; try reflexivity. apply IH.
Qed.

Lemma spans_inv : forall cs st, exists st',
  foldM (fun s c => span_of c s) cs st = Ok st' /\
  fst st <= fst st' /\ snd st <= snd st' /\
  (forall c, In c cs -> c <> [] -> curve_span c <= fst st' /\ last c 0 <= snd st') /\
  (fst st' = fst st \/ exists c, In c cs /\ c <> [] /\ fst st' = curve_span c) /\
  (snd st' = snd st \/ exists c, In c cs /\ c <> [] /\ snd st' = last c 0).
Proof.
  induction cs as [|c cs IH]; intro st.
  - exists st. cbn. split; [reflexivity|]. repeat split; try lra; try tauto.
  - cbn [foldM]. destruct c as [|a c'] eqn:E.
    + rewrite span_of_nil. cbn [bind]. destruct (IH st) as (st' & E1 & E2 & E3 & E4 & E5 & E6).
      exists st'. repeat split; auto.
      * destruct H as [H|H]; [congruence|]. apply (E4 _ H H0).
      * destruct H as [H|H]; [congruence|]. apply (E4 _ H H0).
      * destruct E5 as [?|(x & ? & ? & ?)]; [auto|right; exists x; cbn; auto].
      * destruct E6 as [?|(x & ? & ? & ?)]; [auto|right; exists x; cbn; auto].
    + rewrite <- E. assert (N : c <> []) by congruence. rewrite span_of_ok by assumption. cbn [bind].
      destruct (IH (Rmax (fst st) (curve_span c), Rmax (snd st) (last c 0))) as (st' & E1 & E2 & E3 & E4 & E5 & E6).
      cbn [fst snd] in *.
      pose proof (Rmax_l (fst st) (curve_span c)). pose proof (Rmax_r (fst st) (curve_span c)).
      pose proof (Rmax_l (snd st) (last c 0)). pose proof (Rmax_r (snd st) (last c 0)).
      exists st'. repeat split; auto; try lra.
      * destruct H3 as [H3|H3]; [subst c0; lra|]. apply (E4 _ H3 H4).
      * destruct H3 as [H3|H3]; [subst c0; lra|]. apply (E4 _ H3 H4).
      * destruct E5 as [E5|(x & ? & ? & ?)]; [|right; exists x; cbn; auto].
        rewrite E5. unfold Rmax. destruct Rle_dec; [right; exists c; cbn; auto|left; reflexivity].
      * destruct E6 as [E6|(x & ? & ? & ?)]; [|right; exists x; cbn; auto].
        rewrite E6. unfold Rmax. destruct Rle_dec; [right; exists c; cbn; auto|left; reflexivity].
Qed.

Lemma cadence_of_ok : forall c s, (2 <= length c)%nat ->
  cadence_of c s = Ok (Rmin s (curve_span c / INR (length c - 1))).
Proof.
  intros c s L. assert (N : c <> []) by (intro; subst; cbn in L; lia).
  unfold cadence_of. destruct (count c =? 0)%Z eqn:E; [apply count0 in E; congruence|].
  rewrite (at_last _ _ 0 N), (at0 _ N). cbn [bind].
  replace (count c =? 1)%Z with false by (symmetry; apply Z.eqb_neq; unfold count; lia).
  fold (curve_span c). replace (IZR (count c - 1)) with (INR (length c - 1)).
  2:{ rewrite INR_IZR_INZ. f_equal. unfold count. lia. }
  f_equal. unfold Rmin. destruct Rlt_dec, Rle_dec; lra.
Qed.

Lemma cadence_of_few : forall c s, (length c <= 1)%nat -> cadence_of c s = Ok s.
Proof. intros [|a [|b c]] s L; cbn in L; try lia; reflexivity. Qed.

Lemma cadence_inv : forall cs s, exists s',
  foldM (fun s c => cadence_of c s) cs s = Ok s' /\ s' <= s /\
  (forall c, In c cs -> (2 <= length c)%nat -> s' <= curve_span c / INR (length c - 1)) /\
  (s' = s \/ exists c, In c cs /\ (2 <= length c)%nat /\ s' = curve_span c / INR (length c - 1)).
Proof.
  induction cs as [|c cs IH]; intro s.
  - exists s. cbn. repeat split; try lra; try tauto.
  - cbn [foldM]. destruct (le_lt_dec 2 (length c)) as [L|L].
    + rewrite cadence_of_ok by assumption. cbn [bind].
      set (q := curve_span c / INR (length c - 1)).
      destruct (IH (Rmin s q)) as (s' & E1 & E2 & E3 & E4).
      pose proof (Rmin_l s q). pose proof (Rmin_r s q).
      exists s'. repeat split; auto; try lra.
      * intros x [Hx|Hx] Lx; [subst x; fold q; lra|auto].
      * destruct E4 as [E4|(x & ? & ? & ?)]; [|right; exists x; cbn; auto].
        rewrite E4. unfold Rmin. destruct Rle_dec; [left; reflexivity|right; exists c; cbn; auto].
    + rewrite cadence_of_few by lia. cbn [bind]. destruct (IH s) as (s' & E1 & E2 & E3 & E4).
      exists s'. repeat split; auto.
      * intros x [Hx|Hx] Lx; [subst x; lia|auto].
      * destruct E4 as [E4|(x & ? & ? & ?)]; [auto|right; exists x; cbn; auto].
Qed.

Lemma cadence_con : forall sets s,
  foldM (fun s d => cadence_of (con_t d) s) sets s = foldM (fun s c => cadence_of c s) (map con_t sets) s.
Proof. induction sets; intro s; cbn; [reflexivity|]. destruct (cadence_of (con_t a) s); cbn; auto. Qed.

Lemma cadence_line : forall sets s,
  foldM (fun s d => foldM (fun s c => cadence_of c s) (line_t d) s) sets s =
  foldM (fun s c => cadence_of c s) (flat_map line_t sets) s.
Proof.
  induction sets as [|d sets IH]; intro s; cbn; [reflexivity|]. rewrite foldM_app.
  destruct (foldM (fun s c => cadence_of c s) (line_t d) s); cbn; auto.
Qed.

(** * Report of the end points *)

Lemma report_lines : forall (ls : list (list R)) (out : list (R * R)), exists o,
  foldM (fun out c => if (count c =? 0)%Z then Ok out
     else b <- at_ c 0 ;; e <- at_ c (count c - 1) ;; Ok (out ++ [(b, e)])) ls out = Ok o.
Proof.
  induction ls as [|c ls IH]; intro out; cbn [foldM]; [eauto|].
  destruct c as [|a c]; [cbn [bind count length]; apply IH|].
  assert (N : a :: c <> []) by discriminate.
  replace (count (a :: c) =? 0)%Z with false by (symmetry; apply Z.eqb_neq; unfold count; cbn [length]; lia).
  rewrite (at0 _ N), (at_last _ _ 0 N). cbn [bind]. apply IH.
Qed.

(** * Decimal digits *)

Lemma ln10_pos : 0 < ln 10.
Proof. rewrite <- ln_1. apply ln_increasing; lra. Qed.

Lemma log10_floor : forall x, 0 < x ->
  powerRZ 10 (floorZ (log10 x)) <= x < powerRZ 10 (floorZ (log10 x) + 1).
Proof.
  intros x P. unfold floorZ. destruct (base_Int_part (log10 x)) as [B1 B2].
  pose proof ln10_pos as L.
  assert (E : x = exp (log10 x * ln 10)).
  { unfold log10. replace (ln x / ln 10 * ln 10) with (ln x) by (field; lra). symmetry. apply exp_ln. assumption. }
  assert (Q : forall z, powerRZ 10 z = exp (IZR z * ln 10)).
  { intro z. rewrite powerRZ_Rpower by lra. reflexivity. }
  rewrite !Q. rewrite E at 2 3. split.
  - destruct (Rle_lt_or_eq_dec _ _ B1) as [B|B]; [left; apply exp_increasing; nra|right; rewrite B; reflexivity].
  - apply exp_increasing. rewrite plus_IZR. nra.
Qed.

Lemma pow10_le : forall a b, (a <= b)%Z -> powerRZ 10 a <= powerRZ 10 b.
Proof.
  intros a b H. pose proof ln10_pos. rewrite !powerRZ_Rpower by lra.
  apply Rle_Rpower; [lra|]. apply IZR_le. assumption.
Qed.

Lemma pow10_lt_inv : forall a b, powerRZ 10 a < powerRZ 10 b -> (a < b)%Z.
Proof.
  intros a b H. destruct (Z_lt_ge_dec a b) as [?|G]; [assumption|].
  pose proof (pow10_le b a ltac:(lia)). lra.
Qed.
