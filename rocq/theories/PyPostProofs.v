(** Lemmas about postprocess.py. *)
From Coq Require Import Reals ZArith List Bool Lia Lra Psatz Arith Permutation Sorting.Sorted.
From Verif Require Import CPrelude ListLemmas SortModel SortProofs LogXProofs PostModel PostProofs PostProofs2 PyPostModel.
Import ListNotations.
Open Scope R_scope.

(** * Sums *)
Lemma np_sum_ok : forall l, np_sum l = sumR (fun v => v) l.
Proof. intros. unfold np_sum. rewrite (fold_sum _ (fun v => v)). ring. Qed.

Lemma py_logsumexp_ok : forall l, l <> [] -> py_logsumexp l = logsumexp l.
Proof.
  intros [|v r] H; [congruence|]. unfold py_logsumexp, logsumexp, logsumexp_with.
  cbn [fold_left]. rewrite (Rmax_left v v) by lra.
  f_equal. f_equal. f_equal. rewrite np_sum_ok, (fold_sum _ (fun x => exp (x - fold_left Rmax r v))).
  cbn [map sumR]. rewrite !sumR_map. ring.
Qed.

(** * Sorting *)
Section Ordered.
  Context {A : Type}.
  Definition cross (P : A -> A -> Prop) (l1 l2 : list A) := forall a b, In a l1 -> In b l2 -> P a b.

  Lemma fop_app : forall (P : A -> A -> Prop) l1 l2, ForallOrdPairs P (l1 ++ l2) ->
    ForallOrdPairs P l1 /\ ForallOrdPairs P l2 /\ cross P l1 l2.
  Proof.
    induction l1 as [|a l1 IH]; intros l2 H; simpl in *.
    - split; [constructor|]. split; [exact H|]. intros ? ? [].
    - inversion H as [|? ? F G]; subst. destruct (IH l2 G) as (A1 & A2 & A3).
      apply Forall_app in F. destruct F as [F1 F2]. split; [constructor; auto|]. split; [auto|].
      intros x y [<-|I] J; [|apply A3; auto]. rewrite Forall_forall in F2. auto.
  Qed.

  Lemma merge_ext : forall (c1 c2 : A -> A -> Z) l1 l2,
    cross (fun a b => (c1 a b <=? 0)%Z = (c2 a b <=? 0)%Z) l1 l2 -> merge c1 l1 l2 = merge c2 l1 l2.
  Proof.
    intros c1 c2. induction l1 as [|a l1 IH]; intros l2 H; [reflexivity|].
    induction l2 as [|b l2 IH2]; [reflexivity|]. simpl.
    rewrite (H a b) by (simpl; auto). destruct (c2 a b <=? 0)%Z.
    - f_equal. apply IH. intros x y I J. apply H; simpl; auto.
    - f_equal. apply IH2. intros x y I J. apply H; simpl in *; auto.
  Qed.

  Lemma msort_fuel_ext : forall (c1 c2 : A -> A -> Z) n l,
    ForallOrdPairs (fun a b => (c1 a b <=? 0)%Z = (c2 a b <=? 0)%Z) l -> msort_fuel c1 n l = msort_fuel c2 n l.
  Proof.
    induction n as [|n IH]; intros l H; [reflexivity|]. destruct l as [|a [|b l]]; [reflexivity..|].
    cbn [msort_fuel]. set (h := Nat.div _ 2). rewrite <- (firstn_skipn h (a :: b :: l)) in H.
    destruct (fop_app _ _ _ H) as (H1 & H2 & H3). rewrite (IH _ H1), (IH _ H2). apply merge_ext.
    intros x y I J. apply H3.
    - eapply Permutation_in; [apply msort_fuel_perm|exact I].
    - eapply Permutation_in; [apply msort_fuel_perm|exact J].
  Qed.

  Lemma merge_app : forall (c : A -> A -> Z) l1 l2, cross (fun a b => (c a b <=? 0)%Z = true) l1 l2 ->
    merge c l1 l2 = l1 ++ l2.
  Proof.
    intros c. induction l1 as [|a l1 IH]; intros l2 H; [reflexivity|].
    destruct l2 as [|b l2]; [simpl; rewrite app_nil_r; reflexivity|]. simpl.
    rewrite (H a b) by (simpl; auto). f_equal. apply IH. intros x y I J. apply H; simpl in *; auto.
  Qed.

  Lemma msort_fuel_id : forall (c : A -> A -> Z) n l, ForallOrdPairs (fun a b => (c a b <=? 0)%Z = true) l ->
    msort_fuel c n l = l.
  Proof.
    induction n as [|n IH]; intros l H; [reflexivity|]. destruct l as [|a [|b l]]; [reflexivity..|].
    cbn [msort_fuel]. set (h := Nat.div _ 2). rewrite <- (firstn_skipn h (a :: b :: l)) in H.
    destruct (fop_app _ _ _ H) as (H1 & H2 & H3). rewrite (IH _ H1), (IH _ H2), merge_app by exact H3.
    apply firstn_skipn.
  Qed.
End Ordered.

Lemma members_order : forall sw info i, ForallOrdPairs (fun a b => (m_id a < m_id b)%nat) (members sw info i).
Proof.
  intros sw info i. unfold members. generalize (combine info sw). generalize (length info) at 1.
  generalize O. intros k n. revert k. induction n as [|n IH]; intros k c; simpl; [constructor|].
  destruct c as [|[s w] c]; simpl; [constructor|].
  assert (B : forall m, In m (flat_map (fun x => let '(j, (s, w)) := x in
                     if Nat.eqb w i then [mkm (si_logl s) (si_tb s) j] else []) (combine (seq (S k) n) c)) -> (k < m_id m)%nat).
  { intros m I. apply in_flat_map in I. destruct I as ([j [s' w']] & I1 & I2).
    destruct (Nat.eqb w' i); [|destruct I2]. destruct I2 as [<-|[]]. apply in_combine_l, in_seq in I1. simpl. lia. }
  destruct (Nat.eqb w i); simpl; [|apply IH]. constructor; [|apply IH].
  apply Forall_forall. intros m I. simpl. auto.
Qed.

Lemma py_sorted : forall sw info i, msort py_cmp (members sw info i) = sorted_members sw info i.
Proof.
  intros. unfold sorted_members, msort. apply msort_fuel_ext.
  assert (G : forall l, ForallOrdPairs (fun a b => (m_id a < m_id b)%nat) l ->
    ForallOrdPairs (fun a b : member => (py_cmp a b <=? 0)%Z = (cmp_member a b <=? 0)%Z) l).
  { induction 1 as [|a l F G IH]; constructor; auto. eapply Forall_impl; [|exact F].
    intros b L. cbv beta in L. unfold py_cmp, cmp_member. destruct (Req_EM_T (m_logl a) (m_logl b)) as [E|E].
    - destruct (Rlt_dec (m_logl b) (m_logl a)); [lra|].
      destruct (Req_EM_T (m_tb a) (m_tb b)) as [E2|E2]; [|reflexivity].
      destruct (Rlt_dec (m_tb b) (m_tb a)); [lra|]. destruct (Nat.ltb_spec (m_id b) (m_id a)); [lia|reflexivity].
    - destruct (Rlt_dec (m_logl b) (m_logl a)); reflexivity. }
  apply G, members_order.
Qed.

(** * Masses of the levels *)
Lemma cumsum_diff : forall l a, np_cumsum a (np_diff (a :: l)) = l.
Proof.
  induction l as [|b l IH]; intros a; [reflexivity|].
  change (np_cumsum a ((b - a) :: np_diff (b :: l)) = b :: l). cbn [np_cumsum].
  replace (a + (b - a)) with b by ring. f_equal. apply IH.
Qed.
Lemma py_masses_id : forall u g l, py_masses u g l = l.
Proof.
  intros u g [|x l]; [reflexivity|]. unfold py_masses.
  set (d := np_diff (x :: l)).
  assert (E : forall k c, map Ropp (map (fun kv => snd kv * exp (0 * g (fst kv)))
     (combine (seq k (length (map (fun v => v * (1 + (1 - 1) * u)) (map Ropp c)))) (map (fun v => v * (1 + (1 - 1) * u)) (map Ropp c)))) = c).
  { intros k c. revert k. induction c as [|v c IH]; intros k; [reflexivity|]. simpl. f_equal; [|apply IH].
    rewrite Rmult_0_l, exp_0. ring. }
  rewrite E. cbn [np_cumsum]. rewrite Rplus_0_l. f_equal. apply cumsum_diff.
Qed.
Lemma py_levels_id : forall u g levels, py_levels u g levels = levels.
Proof.
  intros. unfold py_levels. rewrite py_masses_id. induction levels as [|[x y] l IH]; [reflexivity|].
  simpl. f_equal. exact IH.
Qed.

(** * Masses of the samples *)
Lemma linspace_eq : forall n, np_linspace (1 / (INR n + 1)) (1 - 1 / (INR n + 1)) n =
  map (fun k => (INR k + 1) / (INR n + 1)) (seq 0 n).
Proof.
  intros n. unfold np_linspace. apply map_ext_in. intros k I. apply in_seq in I.
  assert (P : 0 < INR n + 1) by (pose proof (pos_INR n); lra).
  destruct (Nat.eqb_spec n 1) as [->|N].
  - assert (k = 0)%nat by lia. subst. simpl. field.
  - assert (Q : 0 < INR n - 1). { assert (1 < INR n) by (apply (lt_INR 1); lia). lra. }
    rewrite (minus_INR n 1) by lia. simpl (INR 1). destruct (Nat.eqb_spec k (n - 1)) as [->|].
    + rewrite minus_INR by lia. simpl (INR 1). field. lra.
    + field. lra.
Qed.

Lemma rev_map_seq : forall A (f : nat -> A) n, rev (map f (seq 0 n)) = map (fun j => f (n - 1 - j)%nat) (seq 0 n).
Proof.
  intros A f n. induction n as [|n IH]; [reflexivity|]. rewrite seq_S at 1. rewrite map_app, rev_app_distr.
  simpl. rewrite Nat.sub_0_r. f_equal; [f_equal; lia|]. rewrite IH, <- seq_shift, map_map. apply map_ext_in.
  intros k I. f_equal. lia.
Qed.

Lemma map_seq_order : forall A (P : A -> A -> Prop) (f : nat -> A) n k,
  (forall i j, (k <= i < j)%nat -> (j < k + n)%nat -> P (f i) (f j)) -> ForallOrdPairs P (map f (seq k n)).
Proof.
  induction n as [|n IH]; intros k H; simpl; constructor.
  - apply Forall_forall. intros y I. apply in_map_iff in I. destruct I as (j & <- & J). apply in_seq in J. apply H; lia.
  - apply IH. intros; apply H; lia.
Qed.

Definition pyval (top bottom : R) (n j : nat) : R :=
  top + ln (exp (bottom - top) + (1 - exp (bottom - top)) * ((INR n - INR j) / (INR n + 1))).

Lemma py_logx_ok : forall top bottom n, bottom < top ->
  py_logx top (exp (bottom - top)) n = Ok (map (pyval top bottom n) (seq 0 n)).
Proof.
  intros top bottom n H. pose proof (umin_range top bottom H) as U. unfold py_logx. rewrite linspace_eq, map_map.
  set (um := exp (bottom - top)) in *.
  assert (P : 0 < INR n + 1) by (pose proof (pos_INR n); lra).
  assert (F : forall k, 0 < (INR k + 1) / (INR n + 1)).
  { intros k. apply Rdiv_lt_0_compat; auto. pose proof (pos_INR k). lra. }
  assert (V : forall k, 0 < um + (1 - um) * ((INR k + 1) / (INR n + 1))) by (intros k; specialize (F k); nra).
  set (h := fun k => top + ln (um + (1 - um) * ((INR k + 1) / (INR n + 1)))).
  assert (M : mapM (fun u => if Rlt_dec 0 u then Ok (top + ln u) else Stuck)
     (map (fun k => um + (1 - um) * ((INR k + 1) / (INR n + 1))) (seq 0 n)) = Ok (map h (seq 0 n))).
  { generalize (seq 0 n). induction l as [|k l IH]; [reflexivity|]. simpl.
    destruct (Rlt_dec 0 (um + (1 - um) * ((INR k + 1) / (INR n + 1)))) as [_|Q]; [|destruct (Q (V k))].
    cbn [bind]. rewrite IH. reflexivity. }
  rewrite M. cbn [bind]. f_equal.
  assert (S1 : np_sort (map h (seq 0 n)) = map h (seq 0 n)).
  { unfold np_sort, msort. apply msort_fuel_id. apply map_seq_order. intros i j I J.
    unfold real_cmp. destruct (Rlt_dec (h j) (h i)) as [L|]; [exfalso|reflexivity].
    assert (h i < h j); [|lra]. unfold h. apply Rplus_lt_compat_l, ln_increasing; [apply V|].
    apply Rplus_lt_compat_l, Rmult_lt_compat_l; [lra|]. apply Rmult_lt_compat_r; [apply Rinv_0_lt_compat; auto|].
    assert (INR i < INR j) by (apply lt_INR; lia). lra. }
  rewrite S1, rev_map_seq. apply map_ext_in. intros j I. apply in_seq in I. unfold h, pyval. fold um.
  replace (n - 1 - j)%nat with (n - S j)%nat by lia. rewrite minus_INR by lia. rewrite S_INR.
  do 5 f_equal. ring.
Qed.

Lemma pyval_xval : forall top bottom n j, bottom < top -> (2 <= n)%nat -> (j < n)%nat ->
  pyval top bottom n j = xval top bottom n j.
Proof. intros. unfold pyval, xval. rewrite frac_eq by (auto; lia). reflexivity. Qed.

Lemma list_ext : forall A (l m : list A), (forall k, nth_error l k = nth_error m k) -> l = m.
Proof.
  induction l as [|a l IH]; intros [|b m] H; [reflexivity|discriminate (H O)..|].
  pose proof (H O) as E. injection E as <-. f_equal. apply IH. intros k. exact (H (S k)).
Qed.

(** What Python stores for a sample beside what the C code stores: the same
    weight, and the same mass wherever the C code has a number. *)
Definition agrees (c q : nr * nr) : Prop := snd q = snd c /\ (fst c = None \/ fst q = fst c).

Lemma py_entry : forall top bottom n j m, bottom < top -> (j < n)%nat ->
  exists q, store_entry top bottom (map Some (map (pyval top bottom n) (seq 0 n))) n j m = Ok (m_id m, q) /\
    agrees (snd (entry top bottom n (j, m))) q.
Proof.
  intros top bottom n j m H J.
  destruct (Nat.eq_dec n 1) as [->|N].
  - assert (j = 0)%nat by lia. subst j. unfold store_entry, entry. cbn -[pyval logdiffexp].
    eexists. split; [reflexivity|]. unfold logdiffexp. rewrite (logdiffexp_ok exp) by auto.
    split; [reflexivity|]. left. reflexivity.
  - assert (E : map Some (map (pyval top bottom n) (seq 0 n)) = logx_this top (exp (bottom - top)) n).
    { apply list_ext. intros k. destruct (lt_dec k n) as [K|K].
      - rewrite logx_this_nth by auto. destruct (Nat.eqb_spec n 1); [lia|].
        rewrite map_map. rewrite nth_error_map_ok with (a := k).
        + rewrite pyval_xval by (auto; lia). reflexivity.
        + rewrite nth_error_nth' with (d := O) by (rewrite seq_length; auto). rewrite seq_nth by auto. reflexivity.
      - rewrite (proj2 (nth_error_None _ _)), (proj2 (nth_error_None _ _)); auto.
        + unfold logx_this. rewrite map_length, seq_length. lia.
        + rewrite !map_length, seq_length. lia. }
    rewrite E, store_entry_ok by auto. eexists. split; [reflexivity|]. split; [reflexivity|]. right. reflexivity.
Qed.

(** * The loop over levels *)
Definition arr_rel (c : option (nr * nr)) (q : nr * nr) : Prop :=
  match c with Some v => agrees v q | None => q = (Some 0, Some 0) end.

Lemma put_rel : forall C P k v q, Forall2 arr_rel C P -> agrees v q ->
  forall C', put C k (Some v) = Ok C' -> exists P', put P k q = Ok P' /\ Forall2 arr_rel C' P'.
Proof.
  unfold put. intros C P k v q F A. revert k. induction F as [|c p C P R0 F IH]; intros k C' E; [discriminate|].
  destruct k as [|k]; simpl in *.
  - injection E as <-. eexists. split; [reflexivity|]. constructor; auto.
  - destruct (set_nth k (Some v) C) as [C1|] eqn:S1; [|discriminate]. injection E as <-.
    destruct (IH k C1) as (P1 & E1 & F1); [rewrite S1; reflexivity|].
    destruct (set_nth k q P); [|discriminate]. injection E1 as <-. eexists. split; [reflexivity|]. constructor; auto.
Qed.

Lemma puts_rel : forall ce qe, Forall2 (fun e f => fst f = fst e /\ agrees (snd e) (snd f)) ce qe ->
  forall C P C', Forall2 arr_rel C P -> foldM (fun a e => put a (fst e) (Some (snd e))) ce C = Ok C' ->
  exists P', foldM (fun a e => put a (fst e) (snd e)) qe P = Ok P' /\ Forall2 arr_rel C' P'.
Proof.
  induction 1 as [|e f ce qe [E1 A1] F IH]; intros C P C' R0 E; simpl in *.
  - injection E as <-. eauto.
  - destruct (put C (fst e) (Some (snd e))) as [C1| | |] eqn:S1; try discriminate. cbn [bind] in E.
    destruct (put_rel C P (fst e) (snd e) (snd f) R0 A1 C1 S1) as (P1 & S2 & R1).
    rewrite E1, S2. cbn [bind]. eapply IH; eauto.
Qed.

Lemma py_level_ok : forall levels info0 info sw C P C' i, wf levels info0 -> (i < length levels)%nat ->
  Forall2 arr_rel C P -> do_level levels sw info C i = Ok C' ->
  exists P', py_level levels sw info P i = Ok P' /\ Forall2 arr_rel C' P'.
Proof.
  intros levels info0 info sw C P C' i W I R0. unfold do_level, py_level, get.
  destruct (nth_error levels i) as [l|] eqn:E; [|apply nth_error_None in E; lia]. cbn [bind].
  rewrite logx_bottom_ok by auto. cbn [bind].
  pose proof (bottom_lt _ _ _ _ W E) as BL.
  rewrite py_sorted. fold (sorted_members sw info i). rewrite sorted_len.
  pose proof (sorted_len sw info i) as SL. set (n := length (members sw info i)) in *.
  rewrite py_logx_ok by auto. cbn [bind].
  rewrite (mapM_total _ _ _ (entry (pl_logX l) (bottom_of levels i) n)).
  2: { intros [j m] J. cbn [fst snd]. apply store_entry_ok; auto.
       apply in_combine_l in J. apply in_seq in J. lia. }
  cbn [bind]. intros H.
  assert (Q : exists qe, mapM (fun jm : nat * member => store_entry (pl_logX l) (bottom_of levels i)
     (map Some (map (pyval (pl_logX l) (bottom_of levels i) n) (seq 0 n))) n (fst jm) (snd jm))
     (combine (seq 0 n) (sorted_members sw info i)) = Ok qe /\
     Forall2 (fun e f => fst f = fst e /\ agrees (snd e) (snd f))
       (map (entry (pl_logX l) (bottom_of levels i) n) (combine (seq 0 n) (sorted_members sw info i))) qe).
  { assert (G : forall jm, In jm (combine (seq 0 n) (sorted_members sw info i)) -> (fst jm < n)%nat).
    { intros [j m] J. apply in_combine_l in J. apply in_seq in J. simpl. lia. }
    revert G. generalize (combine (seq 0 n) (sorted_members sw info i)).
    induction l0 as [|[j m] r IH]; intros G; simpl.
    - exists []. split; [reflexivity|constructor].
    - destruct (py_entry (pl_logX l) (bottom_of levels i) n j m BL) as (q & E1 & A1).
      { apply (G (j, m)). simpl. auto. }
      rewrite E1. cbn [bind]. destruct IH as (qe & E2 & F2); [intros; apply G; simpl; auto|].
      rewrite E2. cbn [bind]. eexists. split; [reflexivity|]. constructor; auto. }
  destruct Q as (qe & E2 & F2). rewrite E2. cbn [bind]. eapply puts_rel; eauto.
Qed.

Lemma py_loop : forall levels info0 info sw, wf levels info0 ->
  forall is C P C', (forall i, In i is -> (i < length levels)%nat) -> Forall2 arr_rel C P ->
  foldM (do_level levels sw info) is C = Ok C' ->
  exists P', foldM (py_level levels sw info) is P = Ok P' /\ Forall2 arr_rel C' P'.
Proof.
  intros levels info0 info sw W. induction is as [|i is IH]; intros C P C' B R0 E; simpl in *.
  - injection E as <-. eauto.
  - destruct (do_level levels sw info C i) as [C1| | |] eqn:S1; try discriminate. cbn [bind] in E.
    destruct (py_level_ok levels info0 info sw C P C1 i W (B i (or_introl eq_refl)) R0 S1) as (P1 & S2 & R1).
    rewrite S2. cbn [bind]. eapply IH; eauto.
Qed.

Lemma start_rel : forall n, Forall2 arr_rel (repeat None n) (repeat (Some 0, Some 0) n).
Proof. induction n; simpl; constructor; auto. reflexivity. Qed.

(** * Sandwiching *)
(** A sample with the likelihood of a level has a smaller tiebreaker. *)
Definition below_ties (levels : list plevel) (tbs : list R) (s : sinfo) : Prop :=
  forall i l t, nth_error levels i = Some l -> nth_error tbs i = Some t ->
    si_logl s = pl_logL l -> si_tb s < t.

Lemma py_climb_ok : forall levels tbs L tb, length tbs = length levels ->
  (forall i a b, nth_error levels i = Some a -> nth_error levels (S i) = Some b -> pl_logL a <= pl_logL b) ->
  (forall i l t, nth_error levels i = Some l -> nth_error tbs i = Some t -> L = pl_logL l -> tb < t) ->
  forall f cur, (cur < length levels)%nat -> (length levels - cur <= f)%nat ->
  exists i, py_climb f (combine (map pl_logL levels) tbs) L tb cur = Ok i /\ sits_prop levels cur L i.
Proof.
  intros levels tbs L tb LT ASC TIE.
  assert (MONO : forall d i a b, nth_error levels i = Some a -> nth_error levels (i + d) = Some b -> pl_logL a <= pl_logL b).
  { induction d as [|d IH]; intros i a b A B.
    - rewrite Nat.add_0_r in B. rewrite A in B. injection B as <-. lra.
    - destruct (nth_error levels (i + d)) as [c|] eqn:C.
      + pose proof (IH i a c A C). rewrite Nat.add_succ_r in B. pose proof (ASC _ _ _ C B). lra.
      + apply nth_error_None in C. apply nth_error_lt in B. lia. }
  assert (CL : length (combine (map pl_logL levels) tbs) = length levels) by (rewrite combine_length, map_length; lia).
  induction f as [|f IH]; intros cur C F; [lia|]. cbn [py_climb]. rewrite CL.
  destruct (Nat.ltb_spec cur (length levels - 1)) as [N|N].
  - destruct (nth_error levels (cur + 1)) as [l|] eqn:EL; [|apply nth_error_None in EL; lia].
    destruct (nth_error tbs (cur + 1)) as [t|] eqn:ET; [|apply nth_error_None in ET; lia].
    assert (G : nth_error (combine (map pl_logL levels) tbs) (cur + 1) = Some (pl_logL l, t)).
    { assert (EM : nth_error (map pl_logL levels) (cur + 1) = Some (pl_logL l)) by (apply map_nth_error; exact EL).
      revert EM ET. generalize (cur + 1)%nat. generalize (map pl_logL levels). clear.
      intros k n. revert k tbs. induction n; intros [|a k] [|b tbs]; simpl; try discriminate.
      - intros X Y; injection X as <-; injection Y as <-; reflexivity.
      - intros; apply IHn; auto. }
    unfold get. rewrite G. cbn [bind].
    assert (X : py_exceeds L tb (pl_logL l, t) = if Rlt_dec (pl_logL l) L then true else false).
    { unfold py_exceeds. cbn [fst snd]. destruct (Req_EM_T L (pl_logL l)) as [E|E]; [|reflexivity].
      pose proof (TIE _ _ _ EL ET E). destruct (Req_EM_T tb t); [lra|]. destruct (Rlt_dec t tb); [lra|].
      destruct (Rlt_dec (pl_logL l) L); [lra|reflexivity]. }
    rewrite X. destruct (Rlt_dec (pl_logL l) L) as [Q|Q].
    + destruct (IH (cur + 1)%nat) as (i & E & ((A1 & A2) & A3 & A4)); [lia|lia|]. exists i. split; [exact E|].
      split; [lia|]. split; [|exact A4]. right. destruct A3 as [->|A3]; [eauto|exact A3].
    + exists cur. split; [reflexivity|]. split; [lia|]. split; [auto|]. intros j l' J NL.
      pose proof (MONO (j - (cur + 1))%nat (cur + 1)%nat l l' EL) as M.
      replace (cur + 1 + (j - (cur + 1)))%nat with j in M by lia. specialize (M NL). lra.
  - exists cur. split; [reflexivity|]. split; [lia|]. split; [auto|]. intros j l J NL. apply nth_error_lt in NL. lia.
Qed.

Lemma py_sandwich_ok : forall levels tbs s, levels <> [] -> (0 <= si_level s)%Z -> length tbs = length levels ->
  (forall i a b, nth_error levels i = Some a -> nth_error levels (S i) = Some b -> pl_logL a <= pl_logL b) ->
  below_ties levels tbs s ->
  py_sandwich levels tbs (clamp_level (length levels) s) = sandwich levels (clamp_level (length levels) s).
Proof.
  intros levels tbs s N H LT ASC TIE.
  assert (NL : (0 < length levels)%nat) by (destruct levels; [congruence|simpl; lia]).
  destruct (sandwich_ok levels s N H) as (i & E & S1). rewrite E. unfold py_sandwich.
  destruct (clamp_props _ s NL H) as (C1 & C2 & C3 & C4). rewrite C1, C2, C4.
  destruct (Z.ltb_spec (si_level (clamp_level (length levels) s)) 0); [lia|].
  rewrite combine_length, map_length, LT, Nat.min_id.
  destruct (py_climb_ok levels tbs (si_logl s) (si_tb s) LT ASC TIE (S (length levels)) (base_level (length levels) s)) as (k & EK & S2).
  - unfold base_level. lia.
  - lia.
  - rewrite EK. f_equal. eapply sits_unique; eauto.
Qed.

(** * The end *)
Lemma rel_vals : forall C P, Forall2 arr_rel C P -> forall vals, mapM initialised C = Ok vals -> Forall2 agrees vals P.
Proof.
  induction 1 as [|c q C P R0 F IH]; intros vals E; simpl in E.
  - injection E as <-. constructor.
  - destruct c as [v|]; [|discriminate]. cbn [initialised bind] in E.
    destruct (mapM initialised C) as [vs| | |]; try discriminate. cbn [bind] in E. injection E as <-. constructor; auto.
Qed.
Lemma agrees_snd : forall vals P, Forall2 agrees vals P -> map snd P = map snd vals.
Proof. induction 1 as [|v q vals P [A _] F IH]; simpl; [reflexivity|]. rewrite A, IH. reflexivity. Qed.
