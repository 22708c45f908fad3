(** Properties C50, C52 - C55. *)
From Coq Require Import Reals ZArith List Bool Lia Lra Arith.
From Flocq Require Import Core Sterbenz.
From Verif Require Import CPrelude SemisepModel SemisepProofs SmallModel HmsProofs.
Import ListNotations.

(** ** C50.  [lz] are the evidences for low, low+1, ...  The reported number
    belongs to the first largest evidence. *)
Definition first_largest (lz : list dbl) (j : nat) : Prop :=
  exists z, nth_error lz j = Some (Val z) /\
    forall i y, nth_error lz i = Some (Val y) -> (y <= z)%Z /\ ((i < j)%nat -> (y < z)%Z).
Lemma best_loop_ok : forall lz pre m jm, 
  (forall i y, nth_error pre i = Some (Val y) -> (y <= m)%Z) ->
  (forall i y, nth_error pre i = Some (Val y) -> (i < jm)%nat -> (y < m)%Z) ->
  ((m > - DBL_MAX)%Z /\ nth_error pre jm = Some (Val m) \/ m = (- DBL_MAX)%Z /\ jm = 0%nat) ->
  let r := best_loop lz (length pre) (Val m) jm in
  (first_largest (pre ++ lz) r) \/
  (r = 0%nat /\ forall i y, nth_error (pre ++ lz) i = Some (Val y) -> (y <= - DBL_MAX)%Z).
Proof.
  induction lz as [|z lz IH]; intros pre m jm H1 H2 H3 r.
  - subst r. simpl. rewrite app_nil_r. destruct H3 as [[H3 H4]|[-> ->]]; [left|right; auto].
    exists m. split; auto. intros i y E. split; [eauto|intros; eauto].
  - subst r. cbn [best_loop]. replace (pre ++ z :: lz) with ((pre ++ [z]) ++ lz) by (rewrite <- app_assoc; reflexivity).
    replace (S (length pre)) with (length (pre ++ [z])) by (rewrite app_length; simpl; lia).
    assert (N : forall i y, nth_error (pre ++ [z]) i = Some (Val y) -> nth_error pre i = Some (Val y) \/ i = length pre /\ z = Val y).
    { intros i y E. destruct (Nat.lt_ge_cases i (length pre)) as [L|L].
      - rewrite nth_error_app1 in E by auto. auto.
      - rewrite nth_error_app2 in E by auto. destruct (i - length pre)%nat as [|[|k]] eqn:K; simpl in E; try discriminate.
        right. split; [lia|congruence]. }
    destruct z as [|z]; cbn [dlt].
    + apply IH.
      * intros i y E. destruct (N _ _ E) as [E'|[_ E']]; [eauto|discriminate].
      * intros i y E L. destruct (N _ _ E) as [E'|[_ E']]; [eauto|discriminate].
      * destruct H3 as [[H3 H4]|H3]; [left; split; auto|auto]. rewrite nth_error_app1; auto. apply nth_error_Some. congruence.
    + destruct (Z.ltb_spec m z).
      * apply IH.
        -- intros i y E. destruct (N _ _ E) as [E'|[_ E']]; [specialize (H1 _ _ E'); lia|]. injection E' as ->. lia.
        -- intros i y E L. destruct (N _ _ E) as [E'|[E' _]]; [specialize (H1 _ _ E'); lia|]. lia.
        -- left. split; [destruct H3 as [[H3 _]|[H3 _]]; lia|]. rewrite nth_error_app2 by lia. rewrite Nat.sub_diag. reflexivity.
      * apply IH.
        -- intros i y E. destruct (N _ _ E) as [E'|[_ E']]; [eauto|]. injection E' as ->. lia.
        -- intros i y E L. destruct (N _ _ E) as [E'|[E' E'']]; [eauto|]. destruct H3 as [[H3 H4]|[H3 H4]].
           ++ assert (jm < length pre)%nat by (apply nth_error_Some; congruence). lia.
           ++ lia.
        -- destruct H3 as [[H3 H4]|H3]; [left; split; auto|auto]. rewrite nth_error_app1; auto. apply nth_error_Some. congruence.
Qed.
Theorem C50_best : forall low lz, (exists i y, nth_error lz i = Some (Val y) /\ (- DBL_MAX < y)%Z) ->
  exists j, best_components low lz = (low + Z.of_nat j)%Z /\ first_largest lz j.
Proof.
  intros low lz (i & y & E & L). unfold best_components. eexists. split; [reflexivity|].
  destruct (best_loop_ok lz [] (- DBL_MAX)%Z 0) as [H|[_ H]].
  - intros k z X. destruct k; discriminate.
  - intros k z X. destruct k; discriminate.
  - auto.
  - exact H.
  - specialize (H i y E). lia.
Qed.
(** Otherwise the first number is reported. *)
Theorem C50_otherwise : forall low lz, (forall i y, nth_error lz i = Some (Val y) -> (y <= - DBL_MAX)%Z) -> best_components low lz = low.
Proof.
  intros low lz H. unfold best_components. replace (best_loop lz 0 (Val (- DBL_MAX)) 0) with 0%nat; [lia|].
  generalize 0%nat at 2. revert H. induction lz as [|z lz IH]; intros H n; [reflexivity|]. cbn [best_loop].
  replace (dlt (Val (- DBL_MAX)) z) with false; [|symmetry].
  - apply IH. intros i y. apply (H (S i)).
  - destruct z as [|z]; [reflexivity|]. cbn [dlt]. apply Z.ltb_ge. apply (H 0%nat). reflexivity.
Qed.
(** So NaN can be reported although another evidence is a number. *)
Theorem C50_refuted : exists low lz j, best_components low lz = (low + Z.of_nat j)%Z /\ nth_error lz j = Some NaN /\
  exists i y, nth_error lz i = Some (Val y).
Proof. exists 1%Z, [NaN; Val (- INF)], 0%nat. split; [reflexivity|]. split; [reflexivity|]. exists 1%nat, (- INF)%Z. reflexivity. Qed.
Example C50_example : best_components 1 [NaN; Val (-70); Val 5; NaN; Val 5; Val 3] = 3%Z /\ first_largest [NaN; Val (-70); Val 5; NaN; Val 5; Val 3] 2.
Proof.
  split; [reflexivity|]. exists 5%Z. split; [reflexivity|]. intros i y E.
  destruct i as [|[|[|[|[|[|i]]]]]]; simpl in E; try discriminate E; try (injection E as <-; lia). destruct i; discriminate.
Qed.

Open Scope R_scope.
(** ** C52.  Rows i < n, columns j < m of the posterior sample P. *)
Definition col_mean (n m : nat) (P : arr) (j : nat) : R := sumn n (fun i => P (i * m + j)%nat) / INR n.
Definition col_std (n m : nat) (P : arr) (j : nat) : R :=
  if (n <=? 1)%nat then 0 else sqrt (sumn n (fun i => (P (i * m + j)%nat - col_mean n m P j) ^ 2) / (INR n - 1)).
Lemma for_cols : forall m (f : nat -> R -> R) a,
  (forall k, for_ 0 m (fun j a => upd a j (f j (a j))) a k = if (k <? m)%nat then f k (a k) else a k).
Proof.
  intros m f a. pose proof (for_inv arr (fun i b => forall k, b k = if (k <? i)%nat then f k (a k) else a k) 0 m (fun j a => upd a j (f j (a j))) a) as G.
  cbv beta in G. apply G.
  - intros k. reflexivity.
  - intros i s L H k. unfold upd. destruct (Nat.eqb_spec k i) as [->|NE].
    + rewrite H. destruct (Nat.ltb_spec i i); [lia|]. destruct (Nat.ltb_spec i (S i)); [reflexivity|lia].
    + rewrite H. destruct (Nat.ltb_spec k i), (Nat.ltb_spec k (S i)); try reflexivity; lia.
Qed.
Lemma for_sum : forall n m (g : nat -> nat -> R) a,
  (forall k, for_ 0 n (fun i a => for_ 0 m (fun j a => upd a j (a j + g i j)) a) a k = if (k <? m)%nat then a k + sumn n (fun i => g i k) else a k).
Proof.
  intros n m g a. pose proof (for_inv arr (fun i b => forall k, b k = if (k <? m)%nat then a k + sumn i (fun i => g i k) else a k) 0 n
    (fun i a => for_ 0 m (fun j a => upd a j (a j + g i j)) a) a) as G. cbv beta in G. apply G.
  - intros k. simpl. rewrite Rplus_0_r. destruct (k <? m)%nat; reflexivity.
  - intros i s L H k. rewrite (for_cols m (fun j x => x + g i j)). rewrite H. cbn [sumn]. destruct (k <? m)%nat; [ring|reflexivity].
Qed.
Theorem C52_mean_std : forall n m P pm0 ps0 j, (1 <= n)%nat -> (j < m)%nat ->
  fst (post_mean_std n m P pm0 ps0) j = col_mean n m P j /\ snd (post_mean_std n m P pm0 ps0) j = col_std n m P j.
Proof.
  intros n m P pm0 ps0 j N J. unfold post_mean_std.
  set (pm1 := for_ 0 m (fun j a => upd a j 0) pm0). set (ps1 := for_ 0 m (fun j a => upd a j 0) ps0).
  set (pm2 := for_ 0 n _ pm1). set (pm3 := for_ 0 m _ pm2). set (ps2 := for_ 0 n _ ps1).
  assert (JB : (j <? m)%nat = true) by (apply Nat.ltb_lt; auto).
  assert (M : pm3 j = col_mean n m P j).
  { unfold pm3. rewrite (for_cols m (fun j x => x / INR n)), JB. unfold pm2. rewrite (for_sum n m (fun i j => P (i * m + j)%nat)), JB.
    unfold pm1. rewrite (for_cols m (fun _ _ => 0)), JB. unfold col_mean. rewrite Rplus_0_l. reflexivity. }
  cbn [fst snd]. split; [exact M|]. unfold col_std.
  destruct (Nat.ltb_spec 1 n), (Nat.leb_spec n 1); try lia.
  - rewrite (for_cols m (fun _ x => sqrt (x / (INR n - 1)))), JB. unfold ps2. rewrite (for_sum n m (fun i j => (P (i * m + j)%nat - pm3 j) ^ 2)), JB.
    unfold ps1. rewrite (for_cols m (fun _ _ => 0)), JB. rewrite Rplus_0_l. do 2 f_equal. apply sumn_ext. intros i I. rewrite M. reflexivity.
  - rewrite (for_cols m (fun _ _ => 0)), JB. reflexivity.
Qed.
(** The mean is within the sample, the root is of a non-negative number over a
    positive one, and the deviation is 0 exactly for one row or equal rows. *)
Lemma sumn_const_le : forall n f c, (forall i, (i < n)%nat -> f i <= c) -> sumn n f <= INR n * c.
Proof. induction n; intros f c H; [simpl; lra|]. cbn [sumn]. rewrite S_INR. specialize (IHn f c). assert (sumn n f <= INR n * c) by (apply IHn; auto). specialize (H n). assert (f n <= c) by (apply H; lia). lra. Qed.
Lemma sumn_const_ge : forall n f c, (forall i, (i < n)%nat -> c <= f i) -> INR n * c <= sumn n f.
Proof. induction n; intros f c H; [simpl; lra|]. cbn [sumn]. rewrite S_INR. specialize (IHn f c). assert (INR n * c <= sumn n f) by (apply IHn; auto). specialize (H n). assert (c <= f n) by (apply H; lia). lra. Qed.
Theorem C52_mean_in_range : forall n m P pm0 ps0 j lo hi, (1 <= n)%nat -> (j < m)%nat ->
  (forall i, (i < n)%nat -> lo <= P (i * m + j)%nat <= hi) -> lo <= fst (post_mean_std n m P pm0 ps0) j <= hi.
Proof.
  intros n m P pm0 ps0 j lo hi N J H. destruct (C52_mean_std n m P pm0 ps0 j N J) as [-> _]. unfold col_mean.
  assert (0 < INR n) by (apply lt_0_INR; lia).
  assert (L := sumn_const_ge n (fun i => P (i * m + j)%nat) lo (fun i I => proj1 (H i I))).
  assert (U := sumn_const_le n (fun i => P (i * m + j)%nat) hi (fun i I => proj2 (H i I))). split.
  - apply Rmult_le_reg_r with (INR n); auto. unfold Rdiv. rewrite Rmult_assoc, Rinv_l by lra. lra.
  - apply Rmult_le_reg_r with (INR n); auto. unfold Rdiv. rewrite Rmult_assoc, Rinv_l by lra. lra.
Qed.
Theorem C52_std : forall n m P pm0 ps0 j, (1 <= n)%nat -> (j < m)%nat ->
  0 <= snd (post_mean_std n m P pm0 ps0) j /\
  (n = 1%nat -> snd (post_mean_std n m P pm0 ps0) j = 0) /\
  ((2 <= n)%nat -> 0 < INR n - 1 /\ 0 <= sumn n (fun i => (P (i * m + j)%nat - col_mean n m P j) ^ 2) /\
     (INR n - 1) * (snd (post_mean_std n m P pm0 ps0) j) ^ 2 = sumn n (fun i => (P (i * m + j)%nat - col_mean n m P j) ^ 2)).
Proof.
  intros n m P pm0 ps0 j N J. destruct (C52_mean_std n m P pm0 ps0 j N J) as [_ ->]. unfold col_std.
  split; [destruct (n <=? 1)%nat; [lra|apply sqrt_pos]|]. split; [intros ->; reflexivity|]. intros L.
  destruct (Nat.leb_spec n 1); [lia|].
  assert (P1 : 0 < INR n - 1). { apply le_INR in L. simpl in L. lra. }
  assert (P2 : 0 <= sumn n (fun i => (P (i * m + j)%nat - col_mean n m P j) ^ 2)) by (apply sumn_ge0; intros; apply pow2_ge_0).
  split; auto. split; auto. rewrite <- Rsqr_pow2, Rsqr_sqrt; [field; lra|]. apply Rmult_le_pos; auto. apply Rlt_le, Rinv_0_lt_compat; auto.
Qed.
Example C52_example : let P := (fun k => match k with 0 => 1 | 1 => 10 | 2 => 3 | 3 => 20 | _ => 0 end)%nat in
  fst (post_mean_std 2 2 (fun k => INR (P k)) (fun _ => 7) (fun _ => 7)) 0%nat = 2 /\
  snd (post_mean_std 2 2 (fun k => INR (P k)) (fun _ => 7) (fun _ => 7)) 0%nat = sqrt 2.
Proof.
  intros P. destruct (C52_mean_std 2 2 (fun k => INR (P k)) (fun _ => 7) (fun _ => 7) 0) as [-> ->]; try lia.
  unfold col_std, col_mean. simpl. split; [field|]. f_equal. field.
Qed.

(** ** C53.  Parameters: idx variability parameters, then for each of L lines one
    number and (amplitude, centre, width) for each of G components. *)
Definition amp (idx G l k : nat) : nat := (idx + l * (1 + 3 * G) + 1 + 3 * k)%nat.
Section Ratio.
  Context {V : Type}.
  Variable add : V -> V -> V.
  (** the transformed vector: [p] gives the old parameters *)
  Definition transformed (G idx L : nat) (p q : nat -> V) (np : nat) : Prop :=
    (forall l k, (l < L)%nat -> (1 <= k < G)%nat -> q (amp idx G l k) = add (p (amp idx G l k)) (p (amp idx G l 0))) /\
    (forall a, (a < np)%nat -> (forall l k, (l < L)%nat -> (1 <= k < G)%nat -> a <> amp idx G l k) -> q a = p a).

  Lemma comps_ok : forall G src dst idx j (m : @mem V), (forall k, (1 <= k < G)%nat -> (src + (idx + j + 1))%nat <> (dst + (idx + j + 1 + k * 3))%nat) ->
    forall a, comps add G src dst idx j m a =
      match (List.find (fun k => Nat.eqb a (dst + (idx + j + 1 + k * 3))) (seq 1 (G - 1))) with
      | Some k => add (m a) (m (src + (idx + j + 1))%nat)
      | None => m a
      end.
  Proof.
    intros G src dst idx j m H. unfold comps. rewrite Nat.mul_0_l, Nat.add_0_r.
    assert (X : forall n s (m : @mem V), (1 <= s)%nat -> (forall k, (s <= k < s + n)%nat -> (src + (idx + j + 1))%nat <> (dst + (idx + j + 1 + k * 3))%nat) ->
      forall a, fold_left (fun m k => mset m (dst + (idx + j + 1 + k * 3)) (add (m (dst + (idx + j + 1 + k * 3))%nat) (m (src + (idx + j + 1))%nat))) (seq s n) m a =
        match List.find (fun k => Nat.eqb a (dst + (idx + j + 1 + k * 3))) (seq s n) with
        | Some k => add (m a) (m (src + (idx + j + 1))%nat) | None => m a end).
    { clear. induction n; intros s m S1 H a; [reflexivity|]. cbn [seq fold_left List.find].
      rewrite IHn by (try lia; intros k K; apply H; lia). unfold mset.
      destruct (Nat.eqb_spec (src + (idx + j + 1)) (dst + (idx + j + 1 + s * 3))) as [E|NE]; [exfalso; apply (H s); [lia|exact E]|].
      destruct (Nat.eqb_spec a (dst + (idx + j + 1 + s * 3))) as [E|N2].
      - destruct (List.find _ (seq (S s) n)) as [k|] eqn:F; [|subst; reflexivity].
        apply find_some in F as [I F]. apply in_seq in I. apply Nat.eqb_eq in F. lia.
      - reflexivity. }
    intros a. apply X; [lia|]. intros k K. apply H. lia.
  Qed.
  Lemma comps_at : forall G src dst idx j (m : @mem V), (forall k, (1 <= k < G)%nat -> (src + (idx + j + 1))%nat <> (dst + (idx + j + 1 + k * 3))%nat) ->
    (forall k, (1 <= k < G)%nat -> comps add G src dst idx j m (dst + (idx + j + 1 + k * 3))%nat = add (m (dst + (idx + j + 1 + k * 3))%nat) (m (src + (idx + j + 1))%nat)) /\
    (forall a, (forall k, (1 <= k < G)%nat -> a <> (dst + (idx + j + 1 + k * 3))%nat) -> comps add G src dst idx j m a = m a).
  Proof.
    intros G src dst idx j m H. split.
    - intros k K. rewrite comps_ok by auto. destruct (List.find _ _) eqn:F; [reflexivity|].
      exfalso. assert (X := find_none _ _ F k). cbv beta in X. rewrite Nat.eqb_refl in X. discriminate X. apply in_seq. lia.
    - intros a A. rewrite comps_ok by auto. destruct (List.find _ _) as [k|] eqn:F; [|reflexivity].
      apply find_some in F as [I F]. apply in_seq in I. apply Nat.eqb_eq in F. exfalso. apply (A k); [lia|exact F].
  Qed.
  (** Loop from line l0 on; [ok]: the first amplitudes are not among the cells written. *)
  Lemma lines_ok : forall G src dst idx n l0 fuel (m : @mem V), (n <= fuel)%nat ->
    (forall l l' k, (1 <= k < G)%nat -> (src + amp idx G l 0)%nat <> (dst + amp idx G l' k)%nat \/ ~ (l0 <= l' < l0 + n)%nat \/ ~ (l0 <= l < l0 + n)%nat) ->
    exists m', lines_loop add fuel G src dst idx ((l0 + n) * (1 + 3 * G)) (l0 * (1 + 3 * G)) m = Ok m' /\
      (forall l k, (l0 <= l < l0 + n)%nat -> (1 <= k < G)%nat -> m' (dst + amp idx G l k)%nat = add (m (dst + amp idx G l k)%nat) (m (src + amp idx G l 0)%nat)) /\
      (forall a, (forall l k, (l0 <= l < l0 + n)%nat -> (1 <= k < G)%nat -> a <> (dst + amp idx G l k)%nat) -> m' a = m a).
  Proof.
    intros G src dst idx n. induction n; intros l0 fuel m FU OK.
    - exists m. rewrite Nat.add_0_r. split; [|split; [lia|reflexivity]].
      destruct fuel; cbn [lines_loop]; destruct (Nat.ltb_spec (l0 * (1 + 3 * G)) (l0 * (1 + 3 * G))); try lia; reflexivity.
    - destruct fuel; [lia|]. cbn [lines_loop]. destruct (Nat.ltb_spec (l0 * (1 + 3 * G)) ((l0 + S n) * (1 + 3 * G))); [|nia].
      assert (EQ : forall k, (dst + (idx + l0 * (1 + 3 * G) + 1 + k * 3))%nat = (dst + amp idx G l0 k)%nat) by (intros k; unfold amp; lia).
      assert (EQ0 : (src + (idx + l0 * (1 + 3 * G) + 1))%nat = (src + amp idx G l0 0)%nat) by (unfold amp; lia).
      destruct (comps_at G src dst idx (l0 * (1 + 3 * G)) m) as [C1 C2].
      { intros k K. rewrite EQ, EQ0. destruct (OK l0 l0 k K) as [X|[X|X]]; [exact X|lia|lia]. }
      set (m1 := comps add G src dst idx (l0 * (1 + 3 * G)) m) in *.
      destruct (IHn (S l0) fuel m1) as (m' & E & A & B); [lia| |].
      { intros l l' k K. destruct (OK l l' k K) as [X|[X|X]]; [auto|right; left; lia|right; right; lia]. }
      exists m'. replace (l0 * (1 + 3 * G) + (1 + 3 * G))%nat with (S l0 * (1 + 3 * G))%nat by lia.
      replace (l0 + S n)%nat with (S l0 + n)%nat by lia. split; [exact E|].
      assert (DIFF : forall l k k', (1 <= k < G)%nat -> (1 <= k' < G)%nat -> (l0 < l)%nat -> amp idx G l k <> amp idx G l0 k') by (intros; unfold amp; nia).
      split.
      + intros l k L K. destruct (Nat.eq_dec l l0) as [->|NE].
        * rewrite B. 2: { intros l' k' L' K' X. apply (DIFF l' k' k); try lia. }
          rewrite <- EQ, <- EQ0. apply C1; auto.
        * rewrite A by lia. f_equal.
          -- apply C2. intros k' K'. rewrite EQ. intros X. apply (DIFF l k k'); lia.
          -- apply C2. intros k' K'. rewrite EQ. destruct (OK l l0 k' K') as [X|[X|X]]; [exact X|lia|lia].
      + intros a N. rewrite B by (intros l k L K; apply N; lia). apply C2. intros k K. rewrite EQ. apply N; lia.
  Qed.
  (** In place: the vector is transformed, all other memory is untouched. *)
  Theorem C53_inplace : forall G idx L src (m : @mem V), (1 <= G)%nat ->
    exists m', transform_response_ratio_inplace add G idx (L * (1 + 3 * G)) src m = Ok m' /\
      transformed G idx L (fun a => m (src + a)%nat) (fun a => m' (src + a)%nat) (idx + L * (1 + 3 * G)) /\
      (forall a, (a < src)%nat \/ (src + idx + L * (1 + 3 * G) <= a)%nat -> m' a = m a).
  Proof.
    intros G idx L src m HG. unfold transform_response_ratio_inplace.
    destruct (lines_ok G src src idx L 0 (S (L * (1 + 3 * G))) m) as (m' & E & A & B).
    - nia.
    - intros l l' k K. left. unfold amp. intros X.
      assert (l' * (1 + 3 * G) + 3 * k = l * (1 + 3 * G))%nat by lia. clear X.
      assert (l' = l \/ l' < l \/ l < l')%nat as [->|[X|X]] by lia; [lia|nia|nia].
    - exists m'. rewrite Nat.add_0_l, Nat.mul_0_l in E. split; [exact E|]. split; [split|].
      + intros l k HL HK. apply A; lia.
      + intros a HA N. apply B. intros l k L0 K X. apply (N l k); lia.
      + intros a HA. apply B. intros l k L0 K X. unfold amp in X. assert (l * (1 + 3 * G) + 3 * k < L * (1 + 3 * G) - 1)%nat by nia. lia.
  Qed.
  (** Copying to a separate vector: same result there, the input vector (the
      sampler's particle) and all other memory untouched. *)
  Theorem C53_copy : forall G idx L src dst (m : @mem V), (1 <= G)%nat ->
    let np := (idx + L * (1 + 3 * G))%nat in
    (src + np <= dst)%nat \/ (dst + np <= src)%nat ->
    exists m', transform_response_ratio add G idx (L * (1 + 3 * G)) np src dst m = Ok m' /\
      transformed G idx L (fun a => m (src + a)%nat) (fun a => m' (dst + a)%nat) np /\
      (forall a, (a < dst)%nat \/ (dst + np <= a)%nat -> m' a = m a) /\
      (forall a, (a < np)%nat -> m' (src + a)%nat = m (src + a)%nat).
  Proof.
    intros G idx L src dst m HG np AP. unfold transform_response_ratio.
    assert (IN : forall l k, (l < L)%nat -> (k < G)%nat -> (amp idx G l k < np)%nat) by (intros; unfold amp, np; nia).
    destruct (lines_ok G src dst idx L 0 (S (L * (1 + 3 * G))) (memcpy m dst src np)) as (m' & E & A & B).
    - nia.
    - intros l l' k K. destruct (Nat.lt_ge_cases l L); [|right; right; lia]. destruct (Nat.lt_ge_cases l' L); [|right; left; lia].
      left. assert (amp idx G l 0 < np)%nat by (apply IN; lia). assert (amp idx G l' k < np)%nat by (apply IN; lia). lia.
    - assert (CP : forall a, (a < np)%nat -> memcpy m dst src np (dst + a)%nat = m (src + a)%nat).
      { intros a H. unfold memcpy. destruct (Nat.leb_spec dst (dst + a)), (Nat.ltb_spec (dst + a) (dst + np)); try lia. cbn [andb]. f_equal. lia. }
      assert (CO : forall a, (a < dst)%nat \/ (dst + np <= a)%nat -> memcpy m dst src np a = m a).
      { intros a H. unfold memcpy. destruct (Nat.leb_spec dst a), (Nat.ltb_spec a (dst + np)); try lia; reflexivity. }
      assert (OUT : forall a, (a < dst)%nat \/ (dst + np <= a)%nat -> m' a = m a).
      { intros a H. rewrite B; [apply CO; auto|]. intros l k HL HK X. assert (amp idx G l k < np)%nat by (apply IN; lia). lia. }
      exists m'. rewrite Nat.add_0_l, Nat.mul_0_l in E. split; [exact E|]. split; [split|split; [exact OUT|]].
      + intros l k HL HK. rewrite A by lia. rewrite CP by (apply IN; lia). f_equal. apply CO.
        assert (amp idx G l 0 < np)%nat by (apply IN; lia). lia.
      + intros a HA N. rewrite B; [apply CP; auto|]. intros l k L0 K X. apply (N l k); lia.
      + intros a HA. apply OUT. lia.
  Qed.
  (** Both versions give the same vector. *)
  Theorem C53_agree : forall G idx L src dst (m m1 m2 : @mem V), (1 <= G)%nat ->
    let np := (idx + L * (1 + 3 * G))%nat in
    (src + np <= dst)%nat \/ (dst + np <= src)%nat ->
    transform_response_ratio add G idx (L * (1 + 3 * G)) np src dst m = Ok m1 ->
    transform_response_ratio_inplace add G idx (L * (1 + 3 * G)) src m = Ok m2 ->
    forall a, (a < np)%nat -> m1 (dst + a)%nat = m2 (src + a)%nat.
  Proof.
    intros G idx L src dst m m1 m2 HG np AP E1 E2 a HA.
    destruct (C53_copy G idx L src dst m HG AP) as (x & F1 & [T1 T1'] & _). destruct (C53_inplace G idx L src m HG) as (y & F2 & [T2 T2'] & _).
    fold np in F1. rewrite E1 in F1. rewrite E2 in F2. injection F1 as <-. injection F2 as <-.
    assert (DEC : (exists l k, (l < L)%nat /\ (1 <= k < G)%nat /\ a = amp idx G l k) \/ (forall l k, (l < L)%nat -> (1 <= k < G)%nat -> a <> amp idx G l k)).
    { clear. induction L as [|n [ (l & k & H1 & H2 & H3) | IH ]]; [right; intros; lia|left; exists l, k; auto|].
      assert (D : (exists k, (1 <= k < G)%nat /\ a = amp idx G n k) \/ (forall k, (1 <= k < G)%nat -> a <> amp idx G n k)).
      { clear. induction G as [|g IHg] in a, idx |- *; [right; intros; lia|].
        destruct (Nat.lt_ge_cases a (idx + n * (1 + 3 * S g) + 1)) as [H|H]; [right; intros k K; unfold amp; lia|].
        set (d := (a - (idx + n * (1 + 3 * S g) + 1))%nat).
        destruct (Nat.eq_dec (d mod 3) 0) as [E|NE].
        - destruct (Nat.lt_ge_cases (d / 3) (S g)), (Nat.lt_ge_cases (d / 3) 1).
          + right. intros k K. unfold amp. pose proof (Nat.div_mod d 3). lia.
          + left. exists (d / 3)%nat. split; [lia|]. unfold amp. pose proof (Nat.div_mod d 3). lia.
          + right. intros k K. unfold amp. pose proof (Nat.div_mod d 3). lia.
          + right. intros k K. unfold amp. pose proof (Nat.div_mod d 3). lia.
        - right. intros k K X. apply NE. replace d with (k * 3)%nat by (unfold d, amp in *; lia). apply Nat.mod_mul. lia. }
      destruct D as [(k & K & X)|D]; [left; exists n, k; auto|]. right. intros l k HL HK. destruct (Nat.eq_dec l n) as [->|]; [auto|]. apply IH; lia. }
    destruct DEC as [(l & k & HL & HK & ->)|N].
    - rewrite T1, T2 by auto. reflexivity.
    - rewrite T1', T2' by auto. reflexivity.
  Qed.
End Ratio.
Example C53_example : forall m', transform_response_ratio Nat.add 2 1 (1 * 7) 8 0 10 (fun k => if (k <? 8)%nat then (k * k)%nat else 0%nat) = Ok m' ->
  map m' (seq 10 8) = [0; 1; 4; 9; 16; 29; 36; 49]%nat /\ map m' (seq 0 8) = [0; 1; 4; 9; 16; 25; 36; 49]%nat.
Proof. intros m' E. vm_compute in E. injection E as <-. split; vm_compute; reflexivity. Qed.

(** ** C54.  For parameters 1 and 2 of each set of three. *)
Definition drw_index (nset i : nat) : Prop := exists s, (s < nset)%nat /\ (i = 3 * s + 1 \/ i = 3 * s + 2)%nat.
Definition in_fit (v sd : R) (x : R) : Prop := v - 5 * sd <= x <= v + 5 * sd.
(** what is done to parameter i: intersection of sets of numbers *)
Definition intersected (v sd lo hi lo' hi' : R) : Prop :=
  (0 < sd -> forall x, lo' <= x <= hi' <-> (lo <= x <= hi /\ in_fit v sd x)) /\
  (~ 0 < sd -> lo' = lo /\ hi' = hi).
Definition empty_overlap (v sd lo hi : R) : Prop := 0 < sd /\ forall x, ~ (lo <= x <= hi /\ in_fit v sd x).
Lemma drw_one_ok : forall (v sd : arr) i (lo hi : arr), lo i <= hi i ->
  match drw_one v sd i (lo, hi) with
  | Ok (lo', hi') => intersected (v i) (sd i) (lo i) (hi i) (lo' i) (hi' i) /\ ~ empty_overlap (v i) (sd i) (lo i) (hi i) /\
      (forall k, k <> i -> lo' k = lo k /\ hi' k = hi k)
  | Exit => empty_overlap (v i) (sd i) (lo i) (hi i)
  | _ => False
  end.
Proof.
  intros v sd i lo hi LE. unfold drw_one. destruct (Rlt_dec 0 (sd i)) as [P|NP].
  - destruct (Rlt_dec (v i + 5 * sd i) (lo i)) as [A|A]; [split; auto; intros x [H [H1 H2]]; lra|].
    destruct (Rlt_dec (hi i) (v i - 5 * sd i)) as [B|B]; [split; auto; intros x [H [H1 H2]]; lra|].
    assert (M1 := Rmax_l (lo i) (v i - 5 * sd i)). assert (M2 := Rmax_r (lo i) (v i - 5 * sd i)).
    assert (M3 := Rmin_l (hi i) (v i + 5 * sd i)). assert (M4 := Rmin_r (hi i) (v i + 5 * sd i)).
    split; [split; [intros _ x|intros; contradiction]|split].
    + unfold upd. rewrite Nat.eqb_refl. unfold in_fit. split; intros H; [lra|].
      split; [apply Rmax_lub; lra|apply Rmin_glb; lra].
    + intros [_ H]. apply (H (Rmax (lo i) (v i - 5 * sd i))). unfold in_fit.
      assert (Rmax (lo i) (v i - 5 * sd i) <= hi i) by (apply Rmax_lub; lra).
      assert (Rmax (lo i) (v i - 5 * sd i) <= v i + 5 * sd i) by (apply Rmax_lub; lra). lra.
    + intros k K. unfold upd. destruct (Nat.eqb_spec k i); [contradiction|]. auto.
  - split; [split; [intros; contradiction|auto]|split; [intros [H _]; contradiction|auto]].
Qed.
Theorem C54_ranges : forall nset (v sd lo hi : arr), (forall i, lo i <= hi i) ->
  match set_drw_par_range_load nset v sd lo hi with
  | Ok (lo', hi') =>
      (forall i, drw_index nset i -> intersected (v i) (sd i) (lo i) (hi i) (lo' i) (hi' i) /\ ~ empty_overlap (v i) (sd i) (lo i) (hi i)) /\
      (forall i, ~ drw_index nset i -> lo' i = lo i /\ hi' i = hi i)
  | Exit => exists i, drw_index nset i /\ empty_overlap (v i) (sd i) (lo i) (hi i)
  | _ => False
  end.
Proof.
  intros nset v sd lo0 hi0 LE0. unfold set_drw_par_range_load.
  assert (G : forall n s (lo hi : arr), (forall k, (3 * s <= k)%nat -> lo k = lo0 k /\ hi k = hi0 k) ->
    match drw_sets n (3 * s) v sd (lo, hi) with
    | Ok (lo', hi') =>
      (forall i, (3 * s <= i)%nat -> drw_index (s + n) i -> intersected (v i) (sd i) (lo0 i) (hi0 i) (lo' i) (hi' i) /\ ~ empty_overlap (v i) (sd i) (lo0 i) (hi0 i)) /\
      (forall i, (i < 3 * s)%nat \/ ~ drw_index (s + n) i -> lo' i = lo i /\ hi' i = hi i)
    | Exit => exists i, drw_index (s + n) i /\ empty_overlap (v i) (sd i) (lo0 i) (hi0 i)
    | _ => False
    end).
  { induction n as [|n IH]; intros s lo hi H.
    - cbn [drw_sets]. split; [|auto]. intros i I (q & Q & D). lia.
    - cbn [drw_sets]. destruct (H (3 * s + 1)%nat ltac:(lia)) as [L1 H1]. destruct (H (3 * s + 2)%nat ltac:(lia)) as [L2 H2].
      assert (A := drw_one_ok v sd (3 * s + 1) lo hi). rewrite L1, H1 in A. specialize (A (LE0 _)).
      destruct (drw_one v sd (3 * s + 1) (lo, hi)) as [[lo1 hi1]| | |]; cbn [bind]; try contradiction.
      2: { exists (3 * s + 1)%nat. split; [exists s; lia|exact A]. }
      destruct A as (A1 & A2 & A3). destruct (A3 (3 * s + 2)%nat ltac:(lia)) as [L3 H3].
      assert (B := drw_one_ok v sd (3 * s + 2) lo1 hi1). rewrite L3, H3, L2, H2 in B. specialize (B (LE0 _)).
      destruct (drw_one v sd (3 * s + 2) (lo1, hi1)) as [[lo2 hi2]| | |]; cbn [bind]; try contradiction.
      2: { exists (3 * s + 2)%nat. split; [exists s; lia|exact B]. }
      destruct B as (B1 & B2 & B3). replace (3 * s + 3)%nat with (3 * S s)%nat by lia.
      specialize (IH (S s) lo2 hi2). 
      assert (HH : forall k, (3 * S s <= k)%nat -> lo2 k = lo0 k /\ hi2 k = hi0 k).
      { intros k K. destruct (B3 k ltac:(lia)) as [-> ->]. destruct (A3 k ltac:(lia)) as [-> ->]. apply H. lia. }
      specialize (IH HH). replace (S s + n)%nat with (s + S n)%nat in IH by lia.
      destruct (drw_sets n (3 * S s) v sd (lo2, hi2)) as [[lo' hi']| | |]; auto. destruct IH as [I1 I2]. split.
      + intros i I D. destruct (Nat.lt_ge_cases i (3 * S s)) as [LT|GE]; [|apply I1; auto].
        destruct (I2 i (or_introl LT)) as [-> ->]. destruct D as (q & Q & D).
        assert (X : (i = 3 * s + 1 \/ i = 3 * s + 2)%nat) by lia. clear D.
        destruct X as [->| ->].
        * destruct (B3 (3 * s + 1)%nat ltac:(lia)) as [-> ->]. auto.
        * auto.
      + intros i I. assert (X : (i < 3 * S s)%nat \/ ~ drw_index (s + S n) i) by lia || (destruct I; [left; lia|auto]).
        destruct (I2 i X) as [-> ->].
        assert (N : i <> (3 * s + 1)%nat /\ i <> (3 * s + 2)%nat).
        { destruct I as [I|I]; [lia|]. split; intros ->; apply I; exists s; lia. }
        destruct N as [N1 N2]. destruct (B3 i N2) as [-> ->]. apply A3; auto. }
  specialize (G nset 0%nat lo0 hi0). cbn [Nat.mul Nat.add] in G. specialize (G (fun k _ => conj eq_refl eq_refl)).
  destruct (drw_sets nset 0 v sd (lo0, hi0)) as [[lo' hi']| | |]; auto. destruct G as [G1 G2]. split; [intros i D; apply G1; [lia|auto]|intros i D; apply G2; auto].
Qed.
Example C54_example : exists lo' hi', set_drw_par_range_load 1 (fun _ => 10) (fun i => if (i =? 1)%nat then 1 else 0) (fun _ => 0) (fun _ => 12) = Ok (lo', hi') /\
  lo' 1%nat = 5 /\ hi' 1%nat = 12 /\ lo' 2%nat = 0 /\ lo' 0%nat = 0.
Proof.
  unfold set_drw_par_range_load, drw_sets, drw_one. cbn [Nat.add Nat.eqb bind].
  destruct (Rlt_dec 0 1); [|lra]. destruct (Rlt_dec (10 + 5 * 1) 0); [lra|]. destruct (Rlt_dec 12 (10 - 5 * 1)); [lra|]. cbn [bind].
  destruct (Rlt_dec 0 0); [lra|]. cbn [bind]. eexists _, _. split; [reflexivity|]. unfold upd. cbn [Nat.eqb].
  unfold Rmax, Rmin. destruct (Rle_dec 0 (10 - 5 * 1)), (Rle_dec 12 (10 + 5 * 1)); repeat split; lra.
Qed.
Example C54_example_stop : set_drw_par_range_load 1 (fun _ => 100) (fun _ => 1) (fun _ => 0) (fun _ => 12) = Exit.
Proof.
  unfold set_drw_par_range_load, drw_sets, drw_one. cbn [Nat.add bind].
  destruct (Rlt_dec 0 1); [|lra]. destruct (Rlt_dec (100 + 5 * 1) 0); [lra|]. destruct (Rlt_dec 12 (100 - 5 * 1)); [|lra]. reflexivity.
Qed.

(** ** C55.  Double arithmetic with rounding to nearest even.  For every double up
    to 68 years (596524 hours) the parts add up exactly. *)
Theorem C55_elapsed : forall dt, double dt -> 0 <= dt < 596524 * 3600 ->
  exists h m s, get_hms rnd64 dt = Ok (h, m, s) /\ 3600 * IZR h + 60 * IZR m + s = dt /\ (0 <= h)%Z /\ (0 <= m < 60)%Z /\ 0 <= s < 60.
Proof.
  intros dt D B. destruct (get_hms_ok dt D) as (h & m & s & E & S1 & S2); [lra|]. exists h, m, s. split; [exact E|]. split; [|exact S2].
  rewrite S1, plus_IZR, !mult_IZR. ring.
Qed.
(** From then on the multiplication of ints overflows. *)
Theorem C55_overflow_refuted : forall dt, double dt -> 596524 * 3600 <= dt -> get_hms rnd64 dt = UB.
Proof. intros dt D B. apply get_hms_over; auto. lra. Qed.
Example C55_example : double 3725 /\ get_hms rnd64 3725 = Ok (1%Z, 2%Z, 5).
Proof.
  assert (D : double 3725) by (apply (double_int 3725); lia). split; [exact D|].
  destruct (C55_elapsed 3725 D) as (h & m & s & E & S1 & H0 & M & S2); [lra|]. rewrite E.
  assert (Z : (3600 * h + 60 * m < 3726 /\ 3665 < 3600 * h + 60 * m)%Z).
  { split; apply lt_IZR; rewrite plus_IZR, !mult_IZR; lra. }
  assert (h = 1%Z) by lia. assert (m = 2%Z) by lia. subst. repeat f_equal. lra.
Qed.

Print Assumptions C50_best.
Print Assumptions C50_otherwise.
Print Assumptions C50_refuted.
Print Assumptions C52_mean_std.
Print Assumptions C52_mean_in_range.
Print Assumptions C52_std.
Print Assumptions C53_inplace.
Print Assumptions C53_copy.
Print Assumptions C53_agree.
Print Assumptions C54_ranges.
Print Assumptions C55_elapsed.
Print Assumptions C55_overflow_refuted.
