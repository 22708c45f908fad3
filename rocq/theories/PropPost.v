(** Properties C21-C25: post-processing of the sampler's output. *)
From Coq Require Import Reals ZArith List Bool Lia Lra Psatz Arith Permutation Sorting.Sorted.
From Verif Require Import CPrelude ListLemmas SortModel SortProofs LogXProofs PostModel PostProofs PostProofs2.
Import ListNotations.
Open Scope R_scope.

(** * Specification vocabulary *)
(** Sum of a list of numbers. *)
Fixpoint total (l : list R) : R := match l with [] => 0 | x :: r => x + total r end.

(** Admissible input: some levels whose log prior mass strictly decreases and
    stays above -1e300, some samples, and no negative level index. *)
Definition admissible (levels : list plevel) (info : list sinfo) : Prop :=
  levels <> [] /\ info <> [] /\
  (forall i a b, nth_error levels i = Some a -> nth_error levels (S i) = Some b -> pl_logX b < pl_logX a) /\
  (forall l, In l levels -> - IZR (10 ^ 300) < pl_logX l) /\
  (forall s, In s info -> (0 <= si_level s)%Z).

(** Level [i] sandwiches sample [s]: the highest level, from the sample's own
    one on, whose likelihood is below the sample's (its own if there is none;
    a level index past the end counts as the last one). *)
Definition sits (levels : list plevel) (s : sinfo) (i : nat) : Prop :=
  let own := Nat.min (Z.to_nat (si_level s)) (length levels - 1) in
  (own <= i < length levels)%nat /\
  (i = own \/ exists l, nth_error levels i = Some l /\ pl_logL l < si_logl s) /\
  (forall j l, (i < j)%nat -> nth_error levels j = Some l -> si_logl s <= pl_logL l).

(** Sample number [a] is sandwiched by level [i]. *)
Definition in_level levels (info : list sinfo) (a i : nat) : Prop :=
  exists s, nth_error info a = Some s /\ sits levels s i.

(** Log prior mass at the lower end of level [i]. *)
Definition lower_mass (levels : list plevel) (i : nat) : R :=
  match nth_error levels (S i) with Some l => pl_logX l | None => - IZR (10 ^ 300) end.

(** Sample [a] ranks below sample [b]: smaller likelihood, or equal
    likelihood and smaller tiebreaker. *)
Definition ranks_below (info : list sinfo) (a b : nat) : Prop :=
  exists s t, nth_error info a = Some s /\ nth_error info b = Some t /\
    (si_logl s < si_logl t \/ (si_logl s = si_logl t /\ si_tb s < si_tb t)).

(** Written log prior mass of sample [a]. *)
Definition mass_is (p : post) (a : nat) (x : R) : Prop := nth_error (po_logx p) a = Some (Some x).

Lemma admissible_wf : forall levels info, admissible levels info -> wf levels info.
Proof. intros levels info (A & B & C & D & E). constructor; auto. Qed.

Lemma total_map : forall A (f : A -> R) l, total (map f l) = sumR f l.
Proof. induction l; simpl; [reflexivity|]. rewrite IHl. reflexivity. Qed.
Lemma total_perm : forall l m, Permutation l m -> total l = total m.
Proof. induction 1; simpl; lra. Qed.

(** * C25: the log-domain helpers *)
Theorem C25_logsumexp : forall x, x <> [] ->
  exists r, logsumexp x = Ok r /\ exp r = total (map exp x).
Proof.
  intros x N. eexists. split; [apply logsumexp_ok; exact N|]. rewrite total_map.
  apply exp_ln. apply sum_exp_pos. exact N.
Qed.

Theorem C25_logdiffexp : forall x1 x2,
  (x2 < x1 -> exists r, logdiffexp x1 x2 = Some r /\ exp r = exp x1 - exp x2) /\
  (x1 <= x2 -> logdiffexp x1 x2 = None).
Proof.
  intros x1 x2. split; intros H.
  - eexists. split; [apply logdiffexp_ok; auto|]. apply exp_ln. pose proof (exp_increasing _ _ H). lra.
  - apply logdiffexp_none. exact H.
Qed.

Theorem C25_permutation : forall x y, Permutation x y -> logsumexp x = logsumexp y.
Proof.
  intros x y P. destruct x as [|a x].
  - apply Permutation_nil in P. subst. reflexivity.
  - assert (y <> []) by (intros ->; apply Permutation_sym, Permutation_nil in P; discriminate).
    rewrite !logsumexp_ok by (auto; discriminate). f_equal. f_equal. apply sumR_perm. exact P.
Qed.

Theorem C25_shift : forall x c r, logsumexp x = Ok r -> logsumexp (map (fun v => v + c) x) = Ok (r + c).
Proof.
  intros [|a x] c r H; [discriminate|]. rewrite logsumexp_ok in H by discriminate.
  assert (R : r = ln (sumR exp (a :: x))) by congruence. subst r.
  rewrite logsumexp_ok by discriminate. rewrite sumR_map. f_equal.
  rewrite (sumR_ext _ _ (fun v => exp c * exp v)) by (intros; rewrite <- exp_plus; f_equal; ring).
  rewrite sumR_scal, ln_mult, ln_exp; [ring|apply exp_pos|apply sum_exp_pos; discriminate].
Qed.

(** The exponential is only ever applied to numbers that are not positive: an
    exponential that is wrong on positive numbers (one that overflows, say)
    gives the same results. *)
Theorem C25_no_overflow : forall ex, (forall v, v <= 0 -> ex v = exp v) ->
  (forall x, logsumexp_with ex x = logsumexp x) /\
  (forall x1 x2, x2 < x1 -> logdiffexp_with ex x1 x2 = logdiffexp x1 x2).
Proof.
  intros ex E. split.
  - intros [|a x]; [reflexivity|]. rewrite logsumexp_ok, logsumexp_with_ok; auto; discriminate.
  - intros x1 x2 H. unfold logdiffexp. rewrite !logdiffexp_ok; auto.
Qed.

Example C25_example : logsumexp [5; 5] = Ok (ln 2 + 5) /\ logdiffexp (ln 3) (ln 2) = Some 0.
Proof.
  split.
  - rewrite logsumexp_ok by discriminate. f_equal. simpl.
    replace (exp 5 + (exp 5 + 0)) with (2 * exp 5) by ring.
    rewrite ln_mult, ln_exp by (lra || apply exp_pos). ring.
  - unfold logdiffexp. rewrite logdiffexp_ok by (auto; apply ln_increasing; lra). rewrite !exp_ln by lra.
    f_equal. replace (3 - 2) with 1 by ring. apply ln_1.
Qed.

(** * C21: weights and evidence *)
Lemma combine_lsub : forall z (a b : list R), length a = length b ->
  combine (lsub z (map (fun x => fst x + snd x) (combine a b))) b =
  map (fun x => (fst x + snd x - z, snd x)) (combine a b).
Proof. induction a; intros [|y b] L; simpl in *; try discriminate; auto. f_equal. apply IHa. lia. Qed.
Lemma sumR_fst_combine : forall (f : R -> R) (a b : list R), length a = length b ->
  sumR (fun x => f (fst x)) (combine a b) = sumR f a.
Proof. induction a; intros [|y b] L; simpl in *; try discriminate; auto. rewrite IHa by lia. reflexivity. Qed.

Lemma lens : forall T levels info p sw lp, post_facts T levels info p sw lp ->
  length (po_logp p) = length info /\ length (po_logl p) = length info /\ length (po_logP p) = length info.
Proof.
  intros T levels info p sw lp F. rewrite (pf_logP _ _ _ _ _ _ F), (pf_logp _ _ _ _ _ _ F), (pf_logl _ _ _ _ _ _ F).
  unfold lsub. rewrite !map_length, combine_length, !map_length. pose proof (pf_len _ _ _ _ _ _ F). lia.
Qed.

Lemma admissible_post : forall T levels info, admissible levels info ->
  exists p sw lp, postprocess T levels info = Ok p /\ post_facts T levels info p sw lp.
Proof. intros. apply post_main. apply admissible_wf. auto. Qed.

Lemma post_facts_of : forall T levels info p, admissible levels info -> postprocess T levels info = Ok p ->
  exists sw lp, post_facts T levels info p sw lp.
Proof.
  intros T levels info p A E. destruct (admissible_post T levels info A) as (q & sw & lp & E2 & F).
  rewrite E in E2. injection E2 as <-. eauto.
Qed.

Lemma nonempty_len : forall A (l : list A), l <> [] -> (0 < length l)%nat.
Proof. intros A [|a l] H; [congruence|simpl; lia]. Qed.
Lemma len_nonempty : forall A (l : list A), (0 < length l)%nat -> l <> [].
Proof. intros A [|a l] H; simpl in *; [lia|discriminate]. Qed.

Lemma prior_sum1 : forall T levels info p sw lp, info <> [] -> post_facts T levels info p sw lp ->
  sumR exp (po_logp p) = 1.
Proof.
  intros T levels info p sw lp N F. rewrite (pf_logp _ _ _ _ _ _ F). apply lsub_sum1.
  apply len_nonempty. rewrite (pf_len _ _ _ _ _ _ F). apply nonempty_len; auto.
Qed.
Lemma post_sum1 : forall T levels info p sw lp, info <> [] -> post_facts T levels info p sw lp ->
  sumR exp (po_logP p) = 1.
Proof.
  intros T levels info p sw lp N F. pose proof (lens _ _ _ _ _ _ F) as (L1 & L2 & L3).
  rewrite (pf_logP _ _ _ _ _ _ F), (pf_logz _ _ _ _ _ _ F). apply lsub_sum1.
  apply len_nonempty. rewrite map_length, combine_length. pose proof (nonempty_len _ _ N). lia.
Qed.

(** Post-processing of admissible input always succeeds. *)
Theorem C21_defined : forall T levels info, admissible levels info ->
  exists p, postprocess T levels info = Ok p /\
    length (po_logp p) = length info /\ length (po_logP p) = length info /\ length (po_logx p) = length info.
Proof.
  intros T levels info A. destruct (admissible_post T levels info A) as (p & sw & lp & E & F).
  exists p. pose proof (lens _ _ _ _ _ _ F). pose proof (pf_lenx _ _ _ _ _ _ F). tauto.
Qed.

Theorem C21_weights : forall T levels info p, admissible levels info -> postprocess T levels info = Ok p ->
  total (map exp (po_logp p)) = 1 /\
  total (map exp (po_logP p)) = 1 /\
  (forall k lp lP s, nth_error (po_logp p) k = Some lp -> nth_error (po_logP p) k = Some lP ->
     nth_error info k = Some s ->
     0 < exp lp <= 1 /\ 0 < exp lP <= 1 /\
     exp lP = exp lp * exp (si_logl s / T) / exp (po_logz p)).
Proof.
  intros T levels info p A E. destruct (post_facts_of _ _ _ _ A E) as (sw & lp & F).
  assert (N : info <> []) by apply A.
  rewrite !total_map. pose proof (prior_sum1 _ _ _ _ _ _ N F) as S1. pose proof (post_sum1 _ _ _ _ _ _ N F) as S2.
  split; [exact S1|]. split; [exact S2|].
  intros k a b s K1 K2 K3.
  assert (LE : forall l v, sumR exp l = 1 -> In v l -> 0 < exp v <= 1).
  { intros l v S I. split; [apply exp_pos|]. pose proof (ent_le1 l S v I) as Q.
    rewrite <- exp_0. destruct Q as [Q| ->]; [left; apply exp_increasing; auto|right; auto]. }
  split; [apply (LE (po_logp p) a S1); apply (nth_error_In _ k K1)|].
  split; [apply (LE (po_logP p) b S2); apply (nth_error_In _ k K2)|].
  rewrite (pf_logP _ _ _ _ _ _ F) in K2. unfold lsub in K2.
  apply nth_error_map_inv in K2. destruct K2 as (w & K2 & <-).
  apply nth_error_map_inv in K2. destruct K2 as ((a' & l) & K2 & <-). simpl.
  assert (G : forall (x y : list R) k a b, nth_error (combine x y) k = Some (a, b) ->
    nth_error x k = Some a /\ nth_error y k = Some b).
  { induction x; intros [|y0 y] [|k'] u v H; simpl in *; try discriminate; auto.
    injection H as -> ->. auto. }
  apply G in K2. destruct K2 as [K2 K4]. rewrite K1 in K2. injection K2 as <-.
  rewrite (pf_logl _ _ _ _ _ _ F) in K4. apply nth_error_map_inv in K4. destruct K4 as (s' & K4 & <-).
  rewrite K3 in K4. injection K4 as <-.
  unfold Rminus. rewrite exp_plus, exp_plus, exp_Ropp. reflexivity.
Qed.
Print Assumptions C21_weights.

Theorem C21_evidence : forall T levels info p, admissible levels info -> postprocess T levels info = Ok p ->
  exists lo hi, In lo info /\ In hi info /\ si_logl lo / T <= po_logz p <= si_logl hi / T.
Proof.
  intros T levels info p A E. destruct (post_facts_of _ _ _ _ A E) as (sw & lp & F).
  assert (N : info <> []) by apply A.
  pose proof (prior_sum1 _ _ _ _ _ _ N F) as S1. pose proof (lens _ _ _ _ _ _ F) as (L1 & L2 & L3).
  assert (Z : exp (po_logz p) = sumR (fun x => exp (fst x) * exp (snd x)) (combine (po_logp p) (po_logl p))).
  { rewrite (pf_logz _ _ _ _ _ _ F), exp_ln, sumR_map.
    - apply sumR_ext. intros; apply exp_plus.
    - apply sum_exp_pos. apply len_nonempty. rewrite map_length, combine_length. pose proof (nonempty_len _ _ N). lia. }
  assert (BND : forall l : list R, l <> [] -> exists lo hi, In lo l /\ In hi l /\ forall v, In v l -> lo <= v <= hi).
  { clear. intros l N. induction l as [|a l IH]; [congruence|]. destruct l as [|b l].
    - exists a, a. simpl. repeat split; auto; destruct H as [->|[]]; lra.
    - destruct IH as (lo & hi & I1 & I2 & B); [discriminate|].
      exists (if Rle_dec a lo then a else lo), (if Rle_dec a hi then hi else a).
      repeat split.
      + destruct (Rle_dec a lo); [left; auto|right; auto].
      + destruct (Rle_dec a hi); [right; auto|left; auto].
      + destruct (Rle_dec a lo), H as [->|H]; try lra; apply B in H; lra.
      + destruct (Rle_dec a hi), H as [->|H]; try lra; apply B in H; lra. }
  destruct (BND (po_logl p)) as (lo & hi & I1 & I2 & B).
  { apply len_nonempty. rewrite L2. apply nonempty_len; auto. }
  assert (C1 : sumR (fun x => exp (fst x)) (combine (po_logp p) (po_logl p)) = 1).
  { rewrite (sumR_fst_combine exp) by lia. exact S1. }
  assert (EXM : forall u v, u <= v -> exp u <= exp v).
  { intros u v [H| ->]; [left; apply exp_increasing; auto|right; auto]. }
  assert (LO : exp lo <= exp (po_logz p)).
  { rewrite Z. replace (exp lo) with (exp lo * 1) by ring. rewrite <- C1, <- sumR_scal. apply sumR_le.
    intros (u & v) I. simpl. apply in_combine_r in I. apply B in I.
    rewrite Rmult_comm. apply Rmult_le_compat_l; [left; apply exp_pos|apply EXM; lra]. }
  assert (HI : exp (po_logz p) <= exp hi).
  { rewrite Z. replace (exp hi) with (exp hi * 1) by ring. rewrite <- C1, <- sumR_scal. apply sumR_le.
    intros (u & v) I. simpl. apply in_combine_r in I. apply B in I.
    rewrite (Rmult_comm (exp hi)). apply Rmult_le_compat_l; [left; apply exp_pos|apply EXM; lra]. }
  assert (EXI : forall u v, exp u <= exp v -> u <= v).
  { intros u v [H|H]; [left; apply exp_lt_inv; auto|right; apply exp_inv; auto]. }
  rewrite (pf_logl _ _ _ _ _ _ F) in I1, I2.
  apply in_map_iff in I1. destruct I1 as (sl & E1 & I1). apply in_map_iff in I2. destruct I2 as (sh & E2 & I2).
  exists sl, sh. rewrite E1, E2. repeat split; auto.
Qed.
Print Assumptions C21_evidence.

(** The information (relative entropy of the posterior weights with respect
    to the prior weights) is not negative. *)
Theorem C21_information : forall T levels info p, admissible levels info -> postprocess T levels info = Ok p ->
  0 <= po_H p.
Proof.
  intros T levels info p A E. destruct (post_facts_of _ _ _ _ A E) as (sw & lp & F).
  assert (N : info <> []) by apply A.
  pose proof (prior_sum1 _ _ _ _ _ _ N F) as S1. pose proof (post_sum1 _ _ _ _ _ _ N F) as S2.
  pose proof (lens _ _ _ _ _ _ F) as (L1 & L2 & L3).
  rewrite (pf_H _ _ _ _ _ _ F).
  set (z := po_logz p) in *. set (c := combine (po_logp p) (po_logl p)).
  assert (CL : combine (po_logP p) (po_logl p) = map (fun x => (fst x + snd x - z, snd x)) c).
  { rewrite (pf_logP _ _ _ _ _ _ F). apply combine_lsub. lia. }
  assert (C1 : sumR (fun x => exp (fst x)) c = 1) by (unfold c; rewrite (sumR_fst_combine exp) by lia; exact S1).
  assert (C2 : sumR (fun x => exp (fst x + snd x - z)) c = 1).
  { rewrite <- S2, (pf_logP _ _ _ _ _ _ F). unfold lsub. rewrite !sumR_map. reflexivity. }
  rewrite CL, sumR_map. simpl.
  assert (G : sumR (fun x => exp (fst x + snd x - z) + (-1) * exp (fst x)) c <=
              sumR (fun x => exp (fst x + snd x - z) * snd x + (- z) * exp (fst x + snd x - z)) c).
  { apply sumR_le. intros (u & v) _. simpl.
    set (w := v - z). replace (u + v - z) with (u + w) by (unfold w; ring). rewrite exp_plus.
    assert (1 + - w <= exp (- w)).
    { destruct (Req_dec (- w) 0) as [->|D]; [rewrite exp_0; lra|]. left. apply exp_ineq1; auto. }
    assert (Q : exp (- w) * exp w = 1) by (rewrite <- exp_plus; replace (- w + w) with 0 by ring; apply exp_0).
    assert (exp w - 1 <= exp w * w).
    { pose proof (exp_pos w). assert ((1 + - w) * exp w <= exp (- w) * exp w) by (apply Rmult_le_compat_r; lra). lra. }
    pose proof (exp_pos u). replace (exp u * exp w * v + - z * (exp u * exp w)) with (exp u * (exp w * w)) by (unfold w; ring).
    replace (exp u * exp w + -1 * exp u) with (exp u * (exp w - 1)) by ring. apply Rmult_le_compat_l; lra. }
  rewrite !sumR_plus, !sumR_scal, C1, C2 in G. lra.
Qed.

(** The weights written to weights.txt are the posterior weights relative to
    the largest one. *)
Theorem C21_written_weights : forall T levels info p, admissible levels info -> postprocess T levels info = Ok p ->
  exists wmax, 0 < wmax /\ In wmax (map exp (po_logP p)) /\ (forall w, In w (map exp (po_logP p)) -> w <= wmax) /\
    map snd (weights_file info p) = map (fun lw => exp lw / wmax) (po_logP p).
Proof.
  intros T levels info p A E. destruct (post_facts_of _ _ _ _ A E) as (sw & lp & F).
  pose proof (lens _ _ _ _ _ _ F) as (L1 & L2 & L3). pose proof (pf_lenx _ _ _ _ _ _ F) as L4.
  destruct (pf_rel _ _ _ _ _ _ F) as (mx & I & M & R).
  exists (exp mx). split; [apply exp_pos|]. split; [apply in_map; exact I|]. split.
  - intros w W. apply in_map_iff in W. destruct W as (v & <- & W). destruct (M v W) as [Q| ->]; [left; apply exp_increasing; auto|right; auto].
  - unfold weights_file. rewrite map_map. cbn [snd]. rewrite <- (map_map snd exp).
    rewrite map_snd_combine.
    + rewrite R. unfold lsub. rewrite map_map. apply map_ext. intros v. unfold Rminus. rewrite exp_plus, exp_Ropp. reflexivity.
    + rewrite combine_length, R. unfold lsub. rewrite map_length. lia.
Qed.
Print Assumptions C21_written_weights.

(** * C22: effective sample size *)
Theorem C22_ess : forall T levels info p, admissible levels info -> postprocess T levels info = Ok p ->
  1 <= po_ESS p <= INR (length info) /\
  (po_ESS p = INR (length info) <-> forall w, In w (map exp (po_logP p)) -> w = / INR (length info)) /\
  (po_ESS p = 1 <-> In 1 (map exp (po_logP p))) /\
  (1 <= po_num_ps p <= Z.of_nat (length info))%Z /\
  IZR (po_num_ps p) <= po_ESS p < IZR (po_num_ps p) + 1.
Proof.
  intros T levels info p A E. destruct (post_facts_of _ _ _ _ A E) as (sw & lp & F).
  assert (N : info <> []) by apply A.
  pose proof (post_sum1 _ _ _ _ _ _ N F) as S2. pose proof (lens _ _ _ _ _ _ F) as (L1 & L2 & L3).
  pose proof (pf_ESS _ _ _ _ _ _ F) as EE. pose proof (pf_num _ _ _ _ _ _ F) as EN.
  destruct (ent_lower (po_logP p) S2) as [LO LOE]. destruct (ent_upper (po_logP p) S2) as [UP UPE].
  rewrite L3 in UP, UPE. set (n := INR (length info)) in *.
  assert (NP : 0 < n) by (apply lt_0_INR, nonempty_len; auto).
  set (h := sumR (fun v => - v * exp v) (po_logP p)) in *.
  assert (B : 1 <= po_ESS p <= n).
  { rewrite EE. split.
    - rewrite <- exp_0. destruct LO as [Q|Q]; [left; apply exp_increasing; auto|rewrite <- Q; right; auto].
    - rewrite <- (exp_ln n NP). destruct UP as [Q|Q]; [left; apply exp_increasing; auto|rewrite Q; right; auto]. }
  split; [exact B|]. split; [|split].
  - split.
    + intros Q w W. apply in_map_iff in W. destruct W as (v & <- & W). apply UPE; auto.
      apply exp_inv. rewrite <- EE, Q, exp_ln; auto.
    + intros H. rewrite EE. rewrite <- (exp_ln n NP). f_equal. unfold h.
      rewrite (sumR_ext _ _ (fun v => ln n * exp v)); [rewrite sumR_scal, S2; ring|].
      intros v V. f_equal. assert (Q : exp v = / n) by (apply H; apply in_map; auto).
      rewrite <- (ln_exp v), Q, ln_Rinv by auto. ring.
  - split.
    + intros Q. assert (h = 0) by (apply exp_inv; rewrite <- EE, Q, exp_0; auto).
      destruct (po_logP p) as [|v r] eqn:EP.
      { simpl in L3. pose proof (nonempty_len _ _ N). lia. }
      left. rewrite (LOE H v) by (left; auto). apply exp_0.
    + intros I. apply in_map_iff in I. destruct I as (v & V & I).
      assert (v = 0) by (apply exp_inv; rewrite V, exp_0; auto). subst v.
      rewrite EE, <- exp_0. f_equal. unfold h.
      destruct (in_split _ _ I) as (a & b & EAB). rewrite EAB in S2 |- *. rewrite sumR_app in *. simpl in *.
      rewrite exp_0 in *.
      assert (Q : forall k, 0 <= sumR exp k).
      { induction k as [|y k IHk]; simpl; [lra|]. pose proof (exp_pos y). lra. }
      pose proof (Q a). pose proof (Q b).
      assert (AE : forall k, sumR exp k = 0 -> k = []).
      { intros [|y k]; auto. simpl. pose proof (Q k). pose proof (exp_pos y). intros. lra. }
      rewrite (AE a) by lra. rewrite (AE b) by lra. simpl. ring.
  - rewrite EN. destruct (base_Int_part (po_ESS p)) as [I1 I2].
    set (k := Int_part (po_ESS p)) in *. split; [|lra]. split.
    + assert (IZR 0 < IZR k) by (simpl; lra). apply lt_IZR in H. lia.
    + assert (IZR k < IZR (Z.of_nat (length info) + 1)).
      { rewrite plus_IZR, <- INR_IZR_INZ. fold n. lra. }
      apply lt_IZR in H. lia.
Qed.
Print Assumptions C22_ess.

(** * C23: prior masses *)
Lemma in_level_sw : forall T levels info p sw lp a i, post_facts T levels info p sw lp ->
  in_level levels info a i <-> nth_error sw a = Some i.
Proof.
  intros T levels info p sw lp a i F. pose proof (pf_sw _ _ _ _ _ _ F) as G. split.
  - intros (s & E & S). destruct (Forall2_nth _ _ _ _ _ _ _ G E) as (i' & E' & S'). rewrite E'. f_equal.
    eapply sits_unique; eauto.
  - intros E. destruct (nth_error info a) as [s|] eqn:EI.
    + destruct (Forall2_nth _ _ _ _ _ _ _ G EI) as (i' & E' & S'). rewrite E in E'. injection E' as <-.
      exists s. auto.
    + apply nth_error_None in EI. apply nth_error_lt in E. pose proof (F2_length _ _ _ _ _ G). lia.
Qed.

Lemma clamp_same : forall nl s, si_logl (clamp_level nl s) = si_logl s /\ si_tb (clamp_level nl s) = si_tb s.
Proof. intros. unfold clamp_level. destruct (_ <? _)%Z; auto. Qed.

Definition cl_ (levels : list plevel) (info : list sinfo) := map (clamp_level (length levels)) info : list sinfo.

(** Position of a sample among the sorted members of its level. *)
Lemma position : forall T levels info p sw lp a i, post_facts T levels info p sw lp ->
  in_level levels info a i ->
  exists j m, nth_error (sorted_members sw (cl_ levels info) i) j = Some m /\ m_id m = a.
Proof.
  intros T levels info p sw lp a i F I. pose proof I as I'. apply (in_level_sw _ _ _ _ _ _ _ _ F) in I.
  destruct I' as (s & E & _).
  assert (IM : In (mkm (si_logl s) (si_tb s) a) (members sw (cl_ levels info) i)).
  { apply members_in.
    - unfold cl_. rewrite map_length. symmetry. eapply F2_length. apply (pf_sw _ _ _ _ _ _ F).
    - exists (clamp_level (length levels) s). simpl. destruct (clamp_same (length levels) s).
      repeat split; auto. unfold cl_. apply map_nth_error. exact E. }
  assert (IS : In (mkm (si_logl s) (si_tb s) a) (sorted_members sw (cl_ levels info) i)).
  { eapply Permutation_in; [apply Permutation_sym, msort_perm|exact IM]. }
  apply In_nth_error in IS. destruct IS as [j IS]. exists j. eauto.
Qed.

Lemma position_info : forall T levels info p sw lp i j m, post_facts T levels info p sw lp ->
  nth_error (sorted_members sw (cl_ levels info) i) j = Some m ->
  in_level levels info (m_id m) i /\
  exists s, nth_error info (m_id m) = Some s /\ m_logl m = si_logl s /\ m_tb m = si_tb s.
Proof.
  intros T levels info p sw lp i j m F N.
  assert (IM : In m (members sw (cl_ levels info) i)).
  { eapply Permutation_in; [apply msort_perm|]. eapply nth_error_In; eauto. }
  apply members_in in IM.
  - destruct IM as (s & E1 & E2 & E3 & E4). split; [apply (in_level_sw _ _ _ _ _ _ _ _ F); exact E2|].
    unfold cl_ in E1. apply nth_error_map_inv in E1. destruct E1 as (s0 & E0 & <-).
    destruct (clamp_same (length levels) s0). exists s0. repeat split; congruence.
  - unfold cl_. rewrite map_length. symmetry. eapply F2_length. apply (pf_sw _ _ _ _ _ _ F).
Qed.

Lemma position_inj : forall sw info i j k m m', nth_error (sorted_members sw info i) j = Some m ->
  nth_error (sorted_members sw info i) k = Some m' -> m_id m = m_id m' -> j = k.
Proof.
  intros sw info i j k m m' J K E.
  assert (ND : NoDup (map m_id (sorted_members sw info i))).
  { eapply Permutation_NoDup; [apply Permutation_map, Permutation_sym, msort_perm|]. apply members_nodup. }
  eapply NoDup_nth_error with (i := j) in ND; [exact ND| |].
  - rewrite map_length. eapply nth_error_lt; eauto.
  - rewrite (map_nth_error _ _ _ J), (map_nth_error _ _ _ K). congruence.
Qed.

Definition mbefore (a b : member) : Prop := m_logl a < m_logl b \/ (m_logl a = m_logl b /\ m_tb a <= m_tb b).
Lemma members_sorted : forall sw info i, StronglySorted mbefore (sorted_members sw info i).
Proof.
  intros. unfold sorted_members. apply (msort_sorted cmp_member (fun _ => True)).
  - intros a b c _ _ _. unfold mbefore. lra.
  - intros a b _ _. unfold cmp_member, mbefore.
    destruct (Rlt_dec (m_logl b) (m_logl a)); [lia|]. destruct (Req_EM_T (m_logl a) (m_logl b)).
    + destruct (Rlt_dec (m_tb b) (m_tb a)); [lia|]. intros _. right. lra.
    + intros _. left. lra.
  - intros a b _ _. unfold cmp_member, mbefore.
    destruct (Rlt_dec (m_logl b) (m_logl a)); [auto|]. destruct (Req_EM_T (m_logl a) (m_logl b)).
    + destruct (Rlt_dec (m_tb b) (m_tb a)); [|lia]. intros _. right. lra.
    + lia.
  - apply Forall_forall. auto.
Qed.
Lemma sorted_nth : forall A (R : A -> A -> Prop) l, StronglySorted R l -> forall j k a b, (j < k)%nat ->
  nth_error l j = Some a -> nth_error l k = Some b -> R a b.
Proof.
  induction 1 as [|x l SS IH FA]; intros j k a b JK J K; [destruct j; discriminate|].
  destruct k; [lia|]. simpl in K. destruct j; simpl in J.
  - injection J as <-. rewrite Forall_forall in FA. apply FA. eapply nth_error_In; eauto.
  - apply (IH j k); auto; lia.
Qed.

Lemma level_exists : forall levels info a i, in_level levels info a i -> exists l, nth_error levels i = Some l.
Proof.
  intros levels info a i (s & _ & (_ & H) & _). destruct (nth_error levels i) eqn:E; eauto.
  apply nth_error_None in E. lia.
Qed.

(** Number of members is at least two when a second sample is in the level,
    one when there is none. *)
Lemma count_two : forall T levels info p sw lp a b i, post_facts T levels info p sw lp ->
  in_level levels info a i -> in_level levels info b i -> a <> b ->
  (2 <= length (members sw (cl_ levels info) i))%nat.
Proof.
  intros T levels info p sw lp a b i F A B D.
  destruct (position _ _ _ _ _ _ _ _ F A) as (j & m & J & MA). destruct (position _ _ _ _ _ _ _ _ F B) as (k & m' & K & MB).
  assert (j <> k) by (intros ->; rewrite J in K; injection K as <-; congruence).
  pose proof (nth_error_lt _ _ _ _ J). pose proof (nth_error_lt _ _ _ _ K). rewrite sorted_len in *. lia.
Qed.
Lemma count_one : forall T levels info p sw lp a i, post_facts T levels info p sw lp ->
  in_level levels info a i -> (forall b, in_level levels info b i -> b = a) ->
  length (members sw (cl_ levels info) i) = 1%nat.
Proof.
  intros T levels info p sw lp a i F A U.
  destruct (position _ _ _ _ _ _ _ _ F A) as (j & m & J & MA). pose proof (nth_error_lt _ _ _ _ J) as JL.
  rewrite sorted_len in JL. destruct (members sw (cl_ levels info) i) as [|x [|y r]] eqn:EM; simpl in *; try lia.
  exfalso.
  assert (IX : forall z, In z (members sw (cl_ levels info) i) -> m_id z = a).
  { intros z Z. assert (In z (sorted_members sw (cl_ levels info) i)) by (eapply Permutation_in; [apply Permutation_sym, msort_perm|exact Z]).
    apply In_nth_error in H. destruct H as [q H]. apply U. eapply position_info; eauto. }
  pose proof (members_nodup sw (cl_ levels info) i) as ND. rewrite EM in ND, IX. simpl in ND. inversion ND; subst.
  apply H1. left. rewrite (IX x), (IX y); simpl; auto.
Qed.

Lemma entry_at : forall T levels info p sw lp i l j m, post_facts T levels info p sw lp ->
  nth_error levels i = Some l -> nth_error (sorted_members sw (cl_ levels info) i) j = Some m ->
  (2 <= length (members sw (cl_ levels info) i))%nat ->
  mass_is p (m_id m) (xval (pl_logX l) (bottom_of levels i) (length (members sw (cl_ levels info) i)) j).
Proof.
  intros T levels info p sw lp i l j m F L N C.
  destruct (pf_entry _ _ _ _ _ _ F i l L j m N) as [G _]. unfold mass_is.
  fold (cl_ levels info) in G.
  destruct (Nat.eqb_spec (length (members sw (cl_ levels info) i)) 1); [lia|exact G].
Qed.

Theorem C23_between : forall T levels info p a b i l, admissible levels info -> postprocess T levels info = Ok p ->
  in_level levels info a i -> in_level levels info b i -> a <> b -> nth_error levels i = Some l ->
  exists x, mass_is p a x /\ lower_mass levels i < x < pl_logX l.
Proof.
  intros T levels info p a b i l A E IA IB D L. destruct (post_facts_of _ _ _ _ A E) as (sw & lp & F).
  pose proof (count_two _ _ _ _ _ _ _ _ _ F IA IB D) as C.
  destruct (position _ _ _ _ _ _ _ _ F IA) as (j & m & J & MA).
  eexists. rewrite <- MA. split; [eapply entry_at; eauto|].
  apply xval_range; auto.
  - apply (bottom_lt levels info i l); auto. apply admissible_wf; auto.
  - pose proof (nth_error_lt _ _ _ _ J). rewrite sorted_len in H. exact H.
Qed.
Print Assumptions C23_between.

Theorem C23_order : forall T levels info p a b i xa xb, admissible levels info -> postprocess T levels info = Ok p ->
  in_level levels info a i -> in_level levels info b i ->
  mass_is p a xa -> mass_is p b xb ->
  (ranks_below info a b -> xb < xa) /\ (a <> b -> xa <> xb).
Proof.
  intros T levels info p a b i xa xb A E IA IB MA MB. destruct (post_facts_of _ _ _ _ A E) as (sw & lp & F).
  destruct (level_exists _ _ _ _ IA) as [l L].
  destruct (position _ _ _ _ _ _ _ _ F IA) as (j & m & J & QA). destruct (position _ _ _ _ _ _ _ _ F IB) as (k & m' & K & QB).
  pose proof (bottom_lt levels info i l (admissible_wf _ _ A) L) as BL.
  assert (G : a <> b -> (j <> k)%nat /\ xa = xval (pl_logX l) (bottom_of levels i) (length (members sw (cl_ levels info) i)) j /\
     xb = xval (pl_logX l) (bottom_of levels i) (length (members sw (cl_ levels info) i)) k /\
     (2 <= length (members sw (cl_ levels info) i))%nat /\
     (j < length (members sw (cl_ levels info) i))%nat /\ (k < length (members sw (cl_ levels info) i))%nat).
  { intros D. pose proof (count_two _ _ _ _ _ _ _ _ _ F IA IB D) as C.
    split; [intros ->; congruence|].
    pose proof (entry_at _ _ _ _ _ _ _ _ _ _ F L J C) as G1. pose proof (entry_at _ _ _ _ _ _ _ _ _ _ F L K C) as G2.
    unfold mass_is in *. rewrite QA in G1. rewrite QB in G2. rewrite MA in G1. rewrite MB in G2. injection G1 as ->. injection G2 as ->.
    pose proof (nth_error_lt _ _ _ _ J). pose proof (nth_error_lt _ _ _ _ K). rewrite sorted_len in *. repeat split; auto. }
  split.
  - intros (s & t & S1 & S2 & H).
    assert (D : a <> b) by (intros ->; rewrite S1 in S2; injection S2 as <-; lra).
    destruct (G D) as (JK & -> & -> & C & JL & KL).
    destruct (position_info _ _ _ _ _ _ _ _ _ F J) as (_ & s' & S1' & P1 & P2).
    destruct (position_info _ _ _ _ _ _ _ _ _ F K) as (_ & t' & S2' & P3 & P4).
    rewrite QA in S1'. rewrite QB in S2'. rewrite S1 in S1'. rewrite S2 in S2'. injection S1' as <-. injection S2' as <-.
    apply xval_dec; auto.
    destruct (lt_eq_lt_dec j k) as [[Q|Q]|Q]; [lia|lia|]. exfalso.
    pose proof (sorted_nth _ _ _ (members_sorted sw (cl_ levels info) i) k j _ _ Q K J) as Z.
    unfold mbefore in Z. lra.
  - intros D. destruct (G D) as (JK & -> & -> & C & JL & KL).
    destruct (lt_eq_lt_dec j k) as [[Q|Q]|Q]; [|lia|].
    + pose proof (xval_dec (pl_logX l) (bottom_of levels i) BL _ C j k (conj Q KL)). lra.
    + pose proof (xval_dec (pl_logX l) (bottom_of levels i) BL _ C k j (conj Q JL)). lra.
Qed.
Print Assumptions C23_order.

(** A lone sample: no prior mass is written (0/0), but its weight is that of
    the whole level: the difference of the two level masses. *)
Theorem C23_single : forall T levels info p a i, admissible levels info -> postprocess T levels info = Ok p ->
  in_level levels info a i -> (forall b, in_level levels info b i -> b = a) ->
  nth_error (po_logx p) a = Some None.
Proof.
  intros T levels info p a i A E IA U. destruct (post_facts_of _ _ _ _ A E) as (sw & lp & F).
  destruct (level_exists _ _ _ _ IA) as [l L].
  destruct (position _ _ _ _ _ _ _ _ F IA) as (j & m & J & QA).
  destruct (pf_entry _ _ _ _ _ _ F i l L j m J) as [G _].
  fold (cl_ levels info) in G. rewrite (count_one _ _ _ _ _ _ _ _ F IA U) in G. rewrite QA in G. exact G.
Qed.
Print Assumptions C23_single.

(** Every sample is sandwiched by exactly one level; when the likelihoods of
    the levels increase, the sample's likelihood is above that of the level
    (unless it is the sample's own level) and not above that of the next. *)
Theorem C23_sandwich : forall levels info a s, admissible levels info -> nth_error info a = Some s ->
  exists i, in_level levels info a i /\ (forall k, in_level levels info a k -> k = i) /\
    (forall l, nth_error levels (S i) = Some l -> si_logl s <= pl_logL l).
Proof.
  intros levels info a s A E. destruct (admissible_post 1 levels info A) as (p & sw & lp & _ & F).
  destruct (Forall2_nth _ _ _ _ _ _ _ (pf_sw _ _ _ _ _ _ F) E) as (i & E1 & S1).
  exists i. split; [exists s; auto|]. split.
  - intros k (s' & E2 & S2). rewrite E in E2. injection E2 as <-. eapply sits_unique; eauto.
  - intros l L. destruct S1 as (_ & _ & H). apply (H (S i)); auto.
Qed.

(** The prior weight of a sample is proportional to the difference between
    the next larger and the next smaller prior mass in its level, the masses
    of the two levels included. *)
Definition next_up (p : post) levels info i top a (x r : R) : Prop :=
  x < r /\ (r = top \/ exists b, in_level levels info b i /\ mass_is p b r) /\
  (forall b y, in_level levels info b i -> mass_is p b y -> b <> a -> y <= x \/ r <= y).
Definition next_down (p : post) levels info i bottom a (x r : R) : Prop :=
  r < x /\ (r = bottom \/ exists b, in_level levels info b i /\ mass_is p b r) /\
  (forall b y, in_level levels info b i -> mass_is p b y -> b <> a -> x <= y \/ y <= r).

Theorem C23_weight : forall T levels info p, admissible levels info -> postprocess T levels info = Ok p ->
  exists c, 0 < c /\ forall a i l, in_level levels info a i -> nth_error levels i = Some l ->
    exists w up down, nth_error (po_logp p) a = Some w /\ exp w = c * (exp up - exp down) /\
      ((forall x, mass_is p a x -> next_up p levels info i (pl_logX l) a x up /\
          next_down p levels info i (lower_mass levels i) a x down) /\
       (nth_error (po_logx p) a = Some None -> up = pl_logX l /\ down = lower_mass levels i)).
Proof.
  intros T levels info p A E. destruct (post_facts_of _ _ _ _ A E) as (sw & lp & F).
  assert (N : info <> []) by apply A.
  assert (LN : lp <> []).
  { apply len_nonempty. rewrite (pf_len _ _ _ _ _ _ F). apply nonempty_len; auto. }
  pose proof (sum_exp_pos lp LN) as SP.
  exists (1 / 2 / sumR exp lp). split.
  { apply Rdiv_lt_0_compat; lra. }
  intros a i l IA L. pose proof (bottom_lt levels info i l (admissible_wf _ _ A) L) as BL.
  destruct (position _ _ _ _ _ _ _ _ F IA) as (j & m & J & QA).
  pose proof (nth_error_lt _ _ _ _ J) as JL. rewrite sorted_len in JL.
  destruct (pf_entry _ _ _ _ _ _ F i l L j m J) as [G1 G2].
  fold (cl_ levels info) in G1, G2. rewrite QA in G1, G2.
  set (n := length (members sw (cl_ levels info) i)) in *. set (top := pl_logX l) in *.
  fold (bottom_of levels i). set (bot := bottom_of levels i) in *.
  exists (ln (1/2) + ln (exp (rightv top bot n j) - exp (leftv top bot n j)) - ln (sumR exp lp)), (rightv top bot n j), (leftv top bot n j).
  pose proof (left_right top bot n j BL JL) as LR.
  split; [|split].
  - rewrite (pf_logp _ _ _ _ _ _ F). unfold lsub. rewrite (map_nth_error _ _ _ G2). reflexivity.
  - pose proof (exp_increasing _ _ LR).
    unfold Rminus at 1. rewrite exp_plus, exp_plus, exp_Ropp.
    rewrite (exp_ln (1 / 2)) by lra. rewrite (exp_ln (sumR exp lp)) by exact SP.
    rewrite exp_ln by lra. unfold Rdiv. ring.
  - split.
    + intros x MX. unfold mass_is in MX. rewrite G1 in MX.
      destruct (Nat.eqb_spec n 1); [discriminate|]. injection MX as <-.
      assert (C : (2 <= n)%nat) by lia.
      assert (OTH : forall b y, in_level levels info b i -> mass_is p b y -> b <> a ->
         exists k, (k < n)%nat /\ k <> j /\ y = xval top bot n k).
      { intros b y IB MB D. destruct (position _ _ _ _ _ _ _ _ F IB) as (k & m' & K & QB).
        exists k. pose proof (nth_error_lt _ _ _ _ K) as KL. rewrite sorted_len in KL. split; [exact KL|].
        split; [intros ->; rewrite J in K; injection K as <-; congruence|].
        pose proof (entry_at _ _ _ _ _ _ _ _ _ _ F L K C) as Q. unfold mass_is in *. rewrite QB in Q.
        rewrite MB in Q. injection Q as ->. reflexivity. }
      assert (AT : forall k, (k < n)%nat -> exists b, in_level levels info b i /\ mass_is p b (xval top bot n k)).
      { intros k KL. unfold n in KL. rewrite <- sorted_len in KL.
        destruct (nth_error (sorted_members sw (cl_ levels info) i) k) as [m'|] eqn:K; [|apply nth_error_None in K; lia].
        exists (m_id m'). split; [eapply position_info; eauto|]. eapply entry_at; eauto. }
      pose proof (xval_range top bot BL n C) as XR. pose proof (xval_dec top bot BL n C) as XD.
      unfold next_up, next_down, rightv, leftv. split.
      * destruct (Nat.eqb_spec j 0) as [->|J0].
        { split; [apply XR; lia|]. split; [auto|]. intros b y IB MB D.
          destruct (OTH b y IB MB D) as (k & KL & KJ & ->). left. left. apply XD. lia. }
        { split; [apply XD; lia|]. split; [right; apply AT; lia|]. intros b y IB MB D.
          destruct (OTH b y IB MB D) as (k & KL & KJ & ->).
          destruct (Nat.lt_trichotomy k (j - 1)) as [Q|[->|Q]].
          - right. left. apply XD. lia.
          - right. lra.
          - left. left. apply XD. lia. }
      * destruct (Nat.eqb_spec j (n - 1)) as [J0|J0].
        { split; [apply XR; lia|]. split; [auto|]. intros b y IB MB D.
          destruct (OTH b y IB MB D) as (k & KL & KJ & ->). left. left. apply XD. lia. }
        { split; [apply XD; lia|]. split; [right; apply AT; lia|]. intros b y IB MB D.
          destruct (OTH b y IB MB D) as (k & KL & KJ & ->).
          destruct (Nat.lt_trichotomy k (j + 1)) as [Q|[->|Q]].
          - left. left. apply XD. lia.
          - right. lra.
          - right. left. apply XD. lia. }
    + intros Z. rewrite G1 in Z. destruct (Nat.eqb_spec n 1) as [N1|]; [|discriminate].
      unfold rightv, leftv. rewrite N1 in *. assert (j = 0)%nat by lia. subst j. simpl. auto.
Qed.
Print Assumptions C23_weight.

(** Two levels, two samples between them, one above. *)
Definition ex_levels := [mkpl 0 (-100); mkpl (-1) (-10)].
Definition ex_info := [mksi 0 (-20) (1/2); mksi 0 (-5) (1/4); mksi 1 (-30) (1/8); mksi 0 (-40) (1/3)].

Lemma ex_admissible : admissible ex_levels ex_info.
Proof.
  unfold admissible, ex_levels, ex_info. split; [discriminate|]. split; [discriminate|]. split; [|split].
  - intros [|[|[|i]]] a b H1 H2; simpl in *; try discriminate; injection H1 as <-; injection H2 as <-; simpl; lra.
  - assert (1 < IZR (10 ^ 300)) by (apply IZR_lt; reflexivity).
    intros l [<-|[<-|[]]]; simpl; lra.
  - intros s I. simpl in I. decompose [or] I; subst; simpl; lia || tauto.
Qed.
Lemma ex_sits0 : in_level ex_levels ex_info 0 0 /\ in_level ex_levels ex_info 3 0 /\ ranks_below ex_info 3 0.
Proof.
  repeat split.
  - exists (mksi 0 (-20) (1/2)). split; [reflexivity|]. unfold sits, ex_levels; simpl. split; [lia|]. split; [auto|].
    intros [|[|j]] l J N; simpl in N; try lia; [injection N as <-; simpl; lra|destruct j; discriminate].
  - exists (mksi 0 (-40) (1/3)). split; [reflexivity|]. unfold sits, ex_levels; simpl. split; [lia|]. split; [auto|].
    intros [|[|j]] l J N; simpl in N; try lia; [injection N as <-; simpl; lra|destruct j; discriminate].
  - exists (mksi 0 (-40) (1/3)), (mksi 0 (-20) (1/2)). simpl. repeat split; auto. left. lra.
Qed.
(** The four-sample case meets the hypotheses of all theorems on C21-C23. *)
Example C23_example : exists p x y, postprocess 1 ex_levels ex_info = Ok p /\ mass_is p 3 x /\ mass_is p 0 y /\
  -1 < y < x /\ x < 0 /\ total (map exp (po_logP p)) = 1 /\ (1 <= po_num_ps p <= 4)%Z.
Proof.
  destruct (C21_defined 1 ex_levels ex_info ex_admissible) as (p & E & _). exists p.
  destruct ex_sits0 as (I0 & I3 & RB).
  destruct (C23_between 1 ex_levels ex_info p 3 0 0 (mkpl 0 (-100)) ex_admissible E I3 I0) as (x & X1 & X2); [lia|reflexivity|].
  destruct (C23_between 1 ex_levels ex_info p 0 3 0 (mkpl 0 (-100)) ex_admissible E I0 I3) as (y & Y1 & Y2); [lia|reflexivity|].
  destruct (C23_order 1 ex_levels ex_info p 3 0 0 x y ex_admissible E I3 I0 X1 Y1) as [O _]. specialize (O RB).
  exists x, y. unfold lower_mass in X2, Y2. simpl in X2, Y2.
  destruct (C21_weights 1 ex_levels ex_info p ex_admissible E) as (_ & S & _).
  destruct (C22_ess 1 ex_levels ex_info p ex_admissible E) as (_ & _ & _ & NP & _). simpl in NP.
  repeat split; try tauto; try lra; lia.
Qed.
(** A single sample: no prior mass. *)
Example C23_example_single : exists p, postprocess 1 [mkpl 0 (-100)] [mksi 0 (-20) 0] = Ok p /\ po_logx p = [None] /\ po_num_ps p = 1%Z.
Proof.
  assert (A : admissible [mkpl 0 (-100)] [mksi 0 (-20) 0]).
  { split; [discriminate|]. split; [discriminate|]. split; [|split].
    - intros [|[|i]] a b H1 H2; simpl in *; discriminate.
    - assert (1 < IZR (10 ^ 300)) by (apply IZR_lt; reflexivity). intros l [<-|[]]; simpl; lra.
    - intros s [<-|[]]; simpl; lia. }
  destruct (C21_defined 1 _ _ A) as (p & E & _ & _ & LX). exists p. split; [exact E|].
  assert (I0 : in_level [mkpl 0 (-100)] [mksi 0 (-20) 0] 0 0).
  { exists (mksi 0 (-20) 0). split; [reflexivity|]. unfold sits; simpl. split; [lia|]. split; [auto|].
    intros [|[|j]] l J N; simpl in N; try lia; discriminate. }
  pose proof (C23_single 1 _ _ p 0 0 A E I0) as S1.
  assert (U : forall b, in_level [mkpl 0 (-100)] [mksi 0 (-20) 0] b 0 -> b = 0%nat).
  { intros [|[|b]] (s & S & _); auto; discriminate. }
  specialize (S1 U). destruct (C22_ess 1 _ _ p A E) as (_ & _ & _ & NP & _). simpl in LX, NP.
  split; [|lia]. destruct (po_logx p) as [|x [|y r]]; simpl in LX; try lia. simpl in S1. injection S1 as ->. reflexivity.
Qed.

(** * C24: the posterior sample *)
(** A draw (sample, uniform number) is accepted iff the number is below the
    sample's weight relative to the largest weight. *)
Definition accepted (p : post) (wmax : R) (d : nat * R) : bool :=
  if Rlt_dec (snd d * wmax) (exp (nth (fst d) (po_logP p) 0)) then true else false.

Lemma draw_one_filter : forall rel (acc : nat * R -> bool) draws,
  (forall d, In d draws -> (fst d < length rel)%nat /\ log_below (snd d) (nth (fst d) rel 0) = acc d) ->
  match filter acc draws with
  | [] => draw_one rel draws = Stuck
  | d :: r => exists rest, draw_one rel draws = Ok (fst d, rest) /\ filter acc rest = r /\
      (forall e, In e rest -> In e draws)
  end.
Proof.
  induction draws as [|[w u] r IH]; intros H; simpl; [reflexivity|].
  destruct (H (w, u)) as [H1 H2]; [simpl; auto|]. simpl in *.
  unfold get. rewrite (nth_error_nth' rel 0 H1). cbn [bind]. rewrite H2.
  destruct (acc (w, u)).
  - exists r. auto.
  - assert (G : forall d, In d r -> (fst d < length rel)%nat /\ log_below (snd d) (nth (fst d) rel 0) = acc d) by auto.
    specialize (IH G). destruct (filter acc r); [exact IH|]. destruct IH as (rest & R1 & R2 & R3). exists rest. repeat split; auto.
Qed.

Lemma resample_filter : forall rel logl acc n draws, length logl = length rel ->
  (forall d, In d draws -> (fst d < length rel)%nat /\ log_below (snd d) (nth (fst d) rel 0) = acc d) ->
  resample rel logl n draws =
  if (length (filter acc draws) <? n)%nat then Stuck
  else Ok (map (fun d => (fst d, nth (fst d) logl 0)) (firstn n (filter acc draws))).
Proof.
  intros rel logl acc n. induction n as [|n IH]; intros draws LL H; simpl.
  { reflexivity. }
  pose proof (draw_one_filter rel acc draws H) as D.
  destruct (filter acc draws) as [|d r] eqn:EF.
  - rewrite D. reflexivity.
  - destruct D as (rest & R1 & R2 & R3). rewrite R1. cbn [bind fst snd].
    assert (ID : In d draws) by (assert (In d (filter acc draws)) by (rewrite EF; left; auto); apply filter_In in H0; tauto).
    destruct (H d ID) as [DL _]. unfold get. rewrite (nth_error_nth' logl 0) by lia. cbn [bind].
    rewrite IH by auto. rewrite R2. simpl length. change (S (length r) <? S n)%nat with (length r <? n)%nat.
    destruct (length r <? n)%nat; reflexivity.
Qed.

Lemma pick_rows_ok : forall A (rows : list A) idx, (forall w, In w idx -> (w < length rows)%nat) ->
  exists out, pick_rows rows idx = Ok out /\ Forall2 (fun w r => nth_error rows w = Some r) idx out.
Proof.
  intros A rows idx H.
  assert (INN : forall i (r : A) js out, (forall j, In j js -> (j < length idx)%nat) -> length out = length idx ->
    exists out', foldM (fun o j => w <- get idx j ;; if Nat.eqb w i then put o j (Some r) else Ok o) js out = Ok out' /\
      length out' = length idx /\
      forall j, nth_error out' j = if (existsb (Nat.eqb j) js && match nth_error idx j with Some w => Nat.eqb w i | None => false end)%bool
                                   then Some (Some r) else nth_error out j).
  { intros i r js. induction js as [|j0 js IH]; intros out HJ LO.
    - exists out. simpl. auto.
    - cbn [foldM]. unfold get at 1. assert (J0 : (j0 < length idx)%nat) by (apply HJ; left; auto).
      destruct (nth_error idx j0) as [w|] eqn:EW; [|apply nth_error_None in EW; lia]. cbn [bind].
      destruct (Nat.eqb w i) eqn:WI.
      + unfold put at 1. destruct (set_nth_some _ out j0 (Some r)) as [o1 S1]; [lia|]. rewrite S1. cbn [bind].
        destruct (IH o1) as (o2 & F1 & F2 & F3); [intros; apply HJ; right; auto|rewrite (set_nth_length _ _ _ _ _ S1); auto|].
        exists o2. split; [exact F1|]. split; [exact F2|]. intros j. rewrite F3. cbn [existsb].
        destruct (Nat.eqb_spec j j0) as [->|NE].
        * rewrite EW, WI. simpl. rewrite andb_true_r. destruct (existsb (Nat.eqb j0) js); [reflexivity|].
          apply (set_nth_eq _ _ _ _ _ S1).
        * simpl. rewrite (set_nth_neq _ _ _ _ _ _ S1 NE). reflexivity.
      + cbn [bind]. destruct (IH out) as (o2 & F1 & F2 & F3); [intros; apply HJ; right; auto|auto|].
        exists o2. split; [exact F1|]. split; [exact F2|]. intros j. rewrite F3. cbn [existsb].
        destruct (Nat.eqb_spec j j0) as [->|NE]; [|reflexivity]. rewrite EW, WI. rewrite !andb_false_r. reflexivity. }
  assert (OUT : forall (rs : list A) (k : nat) (out : list (option A)), length out = length idx ->
    exists out', foldM (pick_row idx) (combine (seq k (length rs)) rs) out = Ok out' /\ length out' = length idx /\
      forall j w, nth_error idx j = Some w -> nth_error out' j =
        match (if (k <=? w)%nat then nth_error rs (w - k) else None) with Some r => Some (Some r) | None => nth_error out j end).
  { induction rs as [|r rs IH]; intros k out LO.
    - exists out. simpl. repeat split; auto. intros j w _. destruct (k <=? w)%nat; [|reflexivity]. destruct (w - k)%nat; reflexivity.
    - cbn [length seq combine foldM]. unfold pick_row at 1. cbn [fst snd].
      destruct (INN k r (seq 0 (length idx)) out) as (o1 & F1 & F2 & F3); [intros j J; apply in_seq in J; lia|auto|].
      rewrite F1. cbn [bind]. destruct (IH (S k) o1 F2) as (o2 & G1 & G2 & G3).
      exists o2. split; [exact G1|]. split; [exact G2|]. intros j w JW. rewrite (G3 j w JW), F3, JW.
      assert (EX : existsb (Nat.eqb j) (seq 0 (length idx)) = true).
      { apply existsb_exists. exists j. split; [apply in_seq; apply nth_error_lt in JW; lia|apply Nat.eqb_refl]. }
      rewrite EX. simpl andb.
      destruct (Nat.leb_spec (S k) w), (Nat.leb_spec k w), (Nat.eqb_spec w k); try lia.
      + replace (w - k)%nat with (S (w - S k)) by lia. reflexivity.
      + subst. rewrite Nat.sub_diag. reflexivity.
      + reflexivity. }
  unfold pick_rows. destruct (OUT rows O (repeat None (length idx)) (repeat_length _ _)) as (o & F1 & F2 & F3).
  rewrite F1. cbn [bind]. clear F1 OUT INN.
  assert (F4 : forall j w, nth_error idx j = Some w -> exists r, nth_error o j = Some (Some r) /\ nth_error rows w = Some r).
  { intros j w E. specialize (F3 j w E). simpl in F3. rewrite Nat.sub_0_r in F3.
    destruct (nth_error rows w) as [r|] eqn:ER; [eauto|]. apply nth_error_None in ER.
    apply nth_error_In in E. apply H in E. lia. }
  clear F3 H. revert o F2 F4. induction idx as [|w idx IH]; intros [|x o] F2 F4; simpl in F2; try discriminate.
  - exists []. split; [reflexivity|constructor].
  - destruct (F4 O w eq_refl) as (r & E1 & E2). simpl in E1. injection E1 as ->.
    destruct (IH o) as (out & M & G); [lia|intros j v E; apply (F4 (S j) v E)|].
    exists (r :: out). cbn [mapM]. cbn [initialised bind]. rewrite M. cbn [bind]. split; [reflexivity|]. constructor; auto.
Qed.

(** With draws in range, the first accepted draws decide: the run needs as
    many accepted draws as rows are announced; row [j] of the posterior sample
    file is the row of the sample file drawn at the [j]-th acceptance, and row
    [j] of the information file its tempered log-likelihood. *)
Theorem C24_posterior : forall A T levels info (rows : list A) p wmax draws,
  admissible levels info -> postprocess T levels info = Ok p -> length rows = length info ->
  In wmax (map exp (po_logP p)) -> (forall w, In w (map exp (po_logP p)) -> w <= wmax) ->
  (forall d, In d draws -> (fst d < length info)%nat /\ 0 <= snd d < 1) ->
  let hits := filter (accepted p wmax) draws in
  let k := Z.to_nat (po_num_ps p) in
  ((length hits < k)%nat -> posterior_files rows p draws = Stuck) /\
  ((k <= length hits)%nat ->
   exists out infos, posterior_files rows p draws = Ok ((po_num_ps p, out), (po_num_ps p, infos)) /\
     po_num_ps p = Z.of_nat (length out) /\ po_num_ps p = Z.of_nat (length infos) /\
     Forall2 (fun d row => nth_error rows (fst d) = Some row) (firstn k hits) out /\
     Forall2 (fun d l => exists s, nth_error info (fst d) = Some s /\ l = si_logl s / T) (firstn k hits) infos).
Proof.
  intros A T levels info rows p wmax draws AD E LR WI WM DR hits k.
  destruct (post_facts_of _ _ _ _ AD E) as (sw & lp & F).
  pose proof (lens _ _ _ _ _ _ F) as (L1 & L2 & L3).
  destruct (pf_rel _ _ _ _ _ _ F) as (mx & MI & MM & RE).
  assert (WX : wmax = exp mx).
  { apply Rle_antisym.
    - apply in_map_iff in WI. destruct WI as (v & <- & V). destruct (MM v V) as [Q| ->]; [left; apply exp_increasing; auto|right; auto].
    - apply WM. apply in_map. exact MI. }
  assert (LRel : length (po_rel p) = length info) by (rewrite RE; unfold lsub; rewrite map_length; auto).
  assert (ACC : forall d, In d draws -> (fst d < length (po_rel p))%nat /\
     log_below (snd d) (nth (fst d) (po_rel p) 0) = accepted p wmax d).
  { intros [w u] I. destruct (DR _ I) as [D1 D2]. simpl in *. rewrite LRel. split; [exact D1|].
    rewrite RE. unfold lsub. rewrite (nth_indep _ 0 ((fun v => v - mx) 0)) by (rewrite map_length; lia). rewrite (map_nth (fun v => v - mx)).
    unfold accepted, log_below. simpl. set (v := nth w (po_logP p) 0). rewrite WX.
    pose proof (exp_pos v). pose proof (exp_pos mx).
    destruct (Req_EM_T u 0) as [->|U0].
    - destruct (Rlt_dec (0 * exp mx) (exp v)); [reflexivity|]. exfalso. apply n. lra.
    - assert (UP : 0 < u) by lra.
      assert (EQ : u * exp mx < exp v <-> ln u < v - mx).
      { rewrite <- (exp_ln u UP) at 1. rewrite <- exp_plus. split; intros Q.
        - apply exp_lt_inv in Q. lra.
        - apply exp_increasing. lra. }
      destruct (Rlt_dec (ln u) (v - mx)), (Rlt_dec (u * exp mx) (exp v)); auto; exfalso; tauto. }
  destruct (C22_ess T levels info p AD E) as (_ & _ & _ & NP & _).
  unfold posterior_files. fold k.
  rewrite (resample_filter (po_rel p) (po_logl p) (accepted p wmax) k draws) by (auto; lia). fold hits.
  split; intros HK.
  - destruct (Nat.ltb_spec (length hits) k); [reflexivity|lia].
  - destruct (Nat.ltb_spec (length hits) k); [lia|]. cbn [bind].
    set (hk := firstn k hits). assert (HL : length hk = k) by (unfold hk; rewrite firstn_length; lia).
    assert (HIN : forall d, In d hk -> (fst d < length info)%nat).
    { intros d I. apply (DR d). unfold hk in I.
      assert (In d hits) by (rewrite <- (firstn_skipn k hits); apply in_or_app; auto).
      unfold hits in H0. apply filter_In in H0. tauto. }
    rewrite !map_map. cbn [fst snd].
    destruct (pick_rows_ok A rows (map (fun d => fst d) hk)) as (out & PO & PF).
    { intros w I. apply in_map_iff in I. destruct I as (d & <- & I). rewrite LR. auto. }
    rewrite PO. cbn [bind]. eexists. eexists. split; [reflexivity|].
    assert (LO : length out = k) by (apply F2_length in PF; rewrite map_length in PF; lia).
    split; [unfold k in LO; lia|]. split; [rewrite map_length; unfold k in HL; lia|]. split.
    + clear - PF. revert out PF. induction hk as [|d hk IH]; intros out PF; inversion PF; subst; constructor; auto.
    + clear - HIN F L2. rewrite (pf_logl _ _ _ _ _ _ F). induction hk as [|d hk IH]; simpl; constructor.
      * assert (D : (fst d < length info)%nat) by (apply HIN; left; auto).
        destruct (nth_error info (fst d)) as [s|] eqn:EI; [|apply nth_error_None in EI; lia].
        exists s. split; [reflexivity|].
        apply nth_error_nth. apply (map_nth_error (fun s => si_logl s / T)). exact EI.
      * apply IH. intros; apply HIN; right; auto.
Qed.
Print Assumptions C24_posterior.

(** With a single sample every draw hits: the posterior sample is that one
    row. *)
Example C24_example : exists p, postprocess 2 [mkpl 0 (-100)] [mksi 0 (-20) 0] = Ok p /\
  exists l, posterior_files [42%Z] p [(0%nat, 1/2)] = Ok ((1%Z, [42%Z]), (1%Z, [l])) /\ l = -20 / 2.
Proof.
  assert (A : admissible [mkpl 0 (-100)] [mksi 0 (-20) 0]).
  { split; [discriminate|]. split; [discriminate|]. split; [|split].
    - intros [|[|i]] a b H1 H2; simpl in *; discriminate.
    - assert (1 < IZR (10 ^ 300)) by (apply IZR_lt; reflexivity). intros l [<-|[]]; simpl; lra.
    - intros s [<-|[]]; simpl; lia. }
  destruct (C21_defined 2 _ _ A) as (p & E & _ & LP & _). exists p. split; [exact E|].
  destruct (C22_ess 2 _ _ p A E) as (_ & _ & _ & NP & _). simpl in NP, LP.
  destruct (C21_weights 2 _ _ p A E) as (_ & S & _).
  destruct (po_logP p) as [|v [|]] eqn:EP; simpl in LP; try lia. simpl in S.
  destruct (C24_posterior _ 2 _ _ [42%Z] p (exp v) [(0%nat, 1/2)] A E) as [_ H]; auto.
  - rewrite EP. left. reflexivity.
  - rewrite EP. intros w [<-|[]]. lra.
  - intros d [<-|[]]. simpl. split; [lia|lra].
  - assert (P1 : po_num_ps p = 1%Z) by lia. simpl in H. unfold accepted in H. rewrite EP in H. simpl in H.
    destruct (Rlt_dec (1 / 2 * exp v) (exp v)) as [_|Q]; [|exfalso; apply Q; lra]. rewrite P1 in H. simpl in H.
    destruct (H (le_n _)) as (out & infos & H1 & _ & _ & H2 & H3).
    destruct out as [|r [|r' out]]; [inversion H2| |inversion H2 as [|? ? ? ? _ Q]; inversion Q].
    destruct infos as [|l [|l' infos]]; [inversion H3| |inversion H3 as [|? ? ? ? _ Q]; inversion Q].
    inversion H2 as [|? ? ? ? R1 _]. inversion H3 as [|? ? ? ? R2 _]. simpl in R1, R2. injection R1 as <-.
    destruct R2 as (s & S1 & R2). injection S1 as <-. simpl in R2.
    exists l. split; [exact H1|exact R2].
Qed.
