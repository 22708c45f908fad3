(** Lemmas about post-processing. *)
From Coq Require Import Reals ZArith List Bool Lia Lra Psatz Arith Permutation Sorting.Sorted.
From Verif Require Import CPrelude ListLemmas SortModel SortProofs LogXProofs PostModel.
Import ListNotations.
Open Scope R_scope.

(** * Sums *)
Lemma fold_sum : forall A (f : A -> R) l a, fold_left (fun acc v => acc + f v) l a = a + sumR f l.
Proof. induction l; intros; simpl; [ring|]. rewrite IHl. ring. Qed.
Lemma sumR_ext : forall A (f g : A -> R) l, (forall x, In x l -> f x = g x) -> sumR f l = sumR g l.
Proof. induction l; intros H; simpl; [reflexivity|]. rewrite H, IHl; auto; intros; try apply H; simpl; auto. Qed.
Lemma sumR_scal : forall A (f : A -> R) c l, sumR (fun x => c * f x) l = c * sumR f l.
Proof. induction l; simpl; [ring|]. rewrite IHl. ring. Qed.
Lemma sumR_plus : forall A (f g : A -> R) l, sumR (fun x => f x + g x) l = sumR f l + sumR g l.
Proof. induction l; simpl; [ring|]. rewrite IHl. ring. Qed.
Lemma sumR_const : forall A c (l : list A), sumR (fun _ => c) l = INR (length l) * c.
Proof. induction l; simpl length; [simpl; ring|]. rewrite S_INR. simpl. rewrite IHl. ring. Qed.
Lemma sumR_le : forall A (f g : A -> R) l, (forall x, In x l -> f x <= g x) -> sumR f l <= sumR g l.
Proof. induction l; intros H; simpl; [lra|]. assert (f a <= g a) by (apply H; simpl; auto).
  assert (sumR f l <= sumR g l) by (apply IHl; intros; apply H; simpl; auto). lra. Qed.
Lemma sumR_pos : forall A (f : A -> R) l, l <> [] -> (forall x, In x l -> 0 < f x) -> 0 < sumR f l.
Proof. induction l as [|a l IH]; intros N H; [congruence|]. simpl.
  assert (0 < f a) by (apply H; simpl; auto).
  destruct l as [|b l]; [simpl; lra|]. assert (0 < sumR f (b :: l)); [|simpl in *; lra].
  apply IH; [discriminate|]. intros; apply H; simpl; auto. Qed.
Lemma sumR_le_eq : forall A (f g : A -> R) l, (forall x, In x l -> f x <= g x) -> sumR f l = sumR g l ->
  forall x, In x l -> f x = g x.
Proof.
  induction l as [|a l IH]; intros H E x I; [destruct I|]. simpl in E.
  assert (f a <= g a) by (apply H; simpl; auto).
  assert (sumR f l <= sumR g l) by (apply sumR_le; intros; apply H; simpl; auto).
  destruct I as [<-|I]; [lra|]. apply IH; auto; [intros; apply H; simpl; auto|lra].
Qed.
Lemma sumR_map : forall A B (g : A -> B) (f : B -> R) l, sumR f (map g l) = sumR (fun x => f (g x)) l.
Proof. induction l; simpl; [reflexivity|]. rewrite IHl. reflexivity. Qed.
Lemma sumR_perm : forall A (f : A -> R) l m, Permutation l m -> sumR f l = sumR f m.
Proof. induction 1; simpl; try lra. Qed.

(** * Log-domain helpers *)
Lemma fold_max_ge : forall l a, a <= fold_left Rmax l a /\ forall v, In v l -> v <= fold_left Rmax l a.
Proof.
  induction l as [|x l IH]; intros a; simpl; [split; [lra|tauto]|].
  destruct (IH (Rmax a x)) as [H1 H2]. split.
  - pose proof (Rmax_l a x). lra.
  - intros v [<-|I]; [|auto]. pose proof (Rmax_r a x). lra.
Qed.
Lemma fold_max_in : forall l a, fold_left Rmax l a = a \/ In (fold_left Rmax l a) l.
Proof.
  induction l as [|x l IH]; intros a; simpl; [auto|].
  destruct (IH (Rmax a x)) as [E|I]; [|auto]. rewrite E.
  unfold Rmax. destruct (Rle_dec a x); auto.
Qed.

Lemma logsumexp_with_ok : forall ex x, x <> [] -> (forall v, v <= 0 -> ex v = exp v) ->
  logsumexp_with ex x = Ok (ln (sumR exp x)).
Proof.
  intros ex [|x0 r] H E; [congruence|]. unfold logsumexp_with. set (x := x0 :: r) in *.
  set (m := fold_left Rmax x x0). rewrite (fold_sum _ (fun v => ex (v - m))). f_equal.
  rewrite (sumR_ext _ (fun v => ex (v - m)) (fun v => exp (- m) * exp v)).
  - rewrite sumR_scal. rewrite Rplus_0_l. rewrite ln_mult, ln_exp; [ring|apply exp_pos|].
    apply sumR_pos; [discriminate|]. intros; apply exp_pos.
  - intros v I. destruct (fold_max_ge x x0) as [_ G]. specialize (G v I). fold m in G.
    rewrite E by lra. rewrite <- exp_plus. f_equal. ring.
Qed.
Lemma logsumexp_ok : forall x, x <> [] -> logsumexp x = Ok (ln (sumR exp x)).
Proof. intros; apply logsumexp_with_ok; auto. Qed.

Lemma sum_exp_pos : forall x, x <> [] -> 0 < sumR exp x.
Proof. intros; apply sumR_pos; auto; intros; apply exp_pos. Qed.

Lemma lsub_sum1 : forall x, x <> [] -> sumR exp (lsub (ln (sumR exp x)) x) = 1.
Proof.
  intros x N. unfold lsub. rewrite sumR_map. pose proof (sum_exp_pos x N) as P.
  rewrite (sumR_ext _ _ (fun v => exp (- ln (sumR exp x)) * exp v)).
  - rewrite sumR_scal, exp_Ropp, exp_ln by exact P. field. lra.
  - intros. rewrite <- exp_plus. f_equal. ring.
Qed.

Lemma logdiffexp_ok : forall ex x1 x2, x2 < x1 -> (forall v, v <= 0 -> ex v = exp v) ->
  logdiffexp_with ex x1 x2 = Some (ln (exp x1 - exp x2)).
Proof.
  intros ex x1 x2 H E. unfold logdiffexp_with. rewrite !E by lra.
  assert (F : exp (x1 - x1) - exp (x2 - x1) = exp (- x1) * (exp x1 - exp x2)).
  { replace (exp (x2 - x1)) with (exp (- x1) * exp x2) by (rewrite <- exp_plus; f_equal; ring).
    replace (exp (x1 - x1)) with (exp (- x1) * exp x1) by (rewrite <- exp_plus; f_equal; ring). ring. }
  rewrite F. assert (P : 0 < exp x1 - exp x2) by (pose proof (exp_increasing _ _ H); lra).
  destruct (Rlt_dec 0 (exp (- x1) * (exp x1 - exp x2))) as [_|Q].
  - f_equal. rewrite ln_mult, ln_exp by (auto; apply exp_pos). ring.
  - exfalso. apply Q. apply Rmult_lt_0_compat; auto. apply exp_pos.
Qed.
Lemma logdiffexp_none : forall x1 x2, x1 <= x2 -> logdiffexp x1 x2 = None.
Proof.
  intros x1 x2 H. unfold logdiffexp, logdiffexp_with. replace (x1 - x1) with 0 by ring. rewrite exp_0.
  destruct (Rlt_dec 0 (1 - exp (x2 - x1))) as [L|]; [|reflexivity]. exfalso.
  assert (1 <= exp (x2 - x1)); [|lra]. rewrite <- exp_0. destruct (Req_dec (x2 - x1) 0) as [->|].
  - lra.
  - left. apply exp_increasing. lra.
Qed.

(** * Entropy *)
Lemma ln_le_minus1 : forall x, 0 < x -> ln x <= x - 1 /\ (ln x = x - 1 -> x = 1).
Proof.
  intros x P. destruct (Req_dec (ln x) 0) as [E|E].
  - rewrite E. assert (x = 1) by (rewrite <- (exp_ln x P), E; apply exp_0). subst. split; [lra|auto].
  - pose proof (exp_ineq1 (ln x) E) as H. rewrite exp_ln in H by exact P. split; [lra|intros; lra].
Qed.

Section Entropy.
  Variable l : list R.    (* log weights *)
  Hypothesis sum1 : sumR exp l = 1.
  Let n := INR (length l).

  Lemma ent_nonempty : l <> [].
  Proof. intros ->. simpl in sum1. lra. Qed.
  Lemma ent_n : 0 < n.
  Proof. unfold n. apply lt_0_INR. pose proof ent_nonempty. destruct l; simpl; [congruence|lia]. Qed.

  Lemma ent_le1 : forall p, In p l -> p <= 0.
  Proof.
    intros p I. apply Rnot_lt_le. intros G.
    assert (1 < exp p) by (rewrite <- exp_0; apply exp_increasing; auto).
    destruct (in_split _ _ I) as (a & b & E). rewrite E, sumR_app in sum1. simpl in sum1.
    assert (Q : forall k, 0 <= sumR exp k).
    { induction k as [|v k IHk]; simpl; [lra|]. pose proof (exp_pos v). lra. }
    pose proof (Q a). pose proof (Q b). lra.
  Qed.

  Lemma ent_lower : 0 <= sumR (fun p => - p * exp p) l /\
    (sumR (fun p => - p * exp p) l = 0 -> forall p, In p l -> p = 0).
  Proof.
    assert (F : forall p, In p l -> 0 <= - p * exp p).
    { intros p I. pose proof (ent_le1 p I). pose proof (exp_pos p). nra. }
    assert (Z : sumR (fun _ : R => 0) l = 0) by (rewrite sumR_const; ring).
    split.
    - rewrite <- Z. apply sumR_le. exact F.
    - intros E p I. rewrite <- Z in E. symmetry in E.
      pose proof (sumR_le_eq _ _ _ l F E p I) as G. simpl in G. pose proof (exp_pos p). nra.
  Qed.

  Lemma ent_upper : sumR (fun p => - p * exp p) l <= ln n /\
    (sumR (fun p => - p * exp p) l = ln n -> forall p, In p l -> exp p = / n).
  Proof.
    pose proof ent_n as N.
    assert (F : forall p, In p l -> - p * exp p <= ln n * exp p + (/ n - exp p)).
    { intros p _. pose proof (exp_pos p) as P.
      assert (G : 0 < / n / exp p) by (apply Rdiv_lt_0_compat; auto; apply Rinv_0_lt_compat; auto).
      destruct (ln_le_minus1 _ G) as [L _]. unfold Rdiv in L. rewrite ln_mult in L.
      2: apply Rinv_0_lt_compat; auto. 2: apply Rinv_0_lt_compat; auto.
      rewrite !ln_Rinv in L by auto. rewrite ln_exp in L.
      apply (Rmult_le_compat_r (exp p)) in L; [|lra].
      replace ((/ n * / exp p - 1) * exp p) with (/ n - exp p) in L by (field; lra). lra. }
    assert (Z : sumR (fun p => ln n * exp p + (/ n - exp p)) l = ln n).
    { rewrite sumR_plus, sumR_scal, sum1.
      rewrite (sumR_ext _ (fun x => / n - exp x) (fun x => / n + (-1) * exp x)) by (intros; ring).
      rewrite sumR_plus, sumR_const, sumR_scal, sum1. fold n. field. lra. }
    split.
    - rewrite <- Z. apply sumR_le. exact F.
    - intros E p I. rewrite <- Z in E.
      pose proof (sumR_le_eq _ _ _ l F E p I) as G. simpl in G. pose proof (exp_pos p) as P.
      assert (Q : 0 < / n / exp p) by (apply Rdiv_lt_0_compat; auto; apply Rinv_0_lt_compat; auto).
      destruct (ln_le_minus1 _ Q) as [_ L].
      assert (E1 : ln (/ n / exp p) = / n / exp p - 1).
      { unfold Rdiv. rewrite ln_mult; [|apply Rinv_0_lt_compat; auto..]. rewrite !ln_Rinv by auto.
        rewrite ln_exp. apply (Rmult_eq_reg_r (exp p)); [|lra].
        replace ((/ n * / exp p - 1) * exp p) with (/ n - exp p) by (field; lra). lra. }
      specialize (L E1). apply (f_equal (fun x => x * exp p)) in L. unfold Rdiv in L.
      rewrite Rmult_assoc, Rinv_l in L by lra. lra.
  Qed.
End Entropy.

(** * Prior masses within a level *)
Section Masses.
  Variables top bottom : R.
  Hypothesis lt : bottom < top.
  Variable n : nat.
  Let Umin := exp (bottom - top).
  Definition frac (j : nat) : R :=
    1 / (1 + INR n) + (1 - 2 / (1 + INR n)) * INR (n - 1 - j) / (INR n - 1).
  Definition xval (j : nat) : R := top + ln (Umin + (1 - Umin) * frac j).

  Lemma umin_range : 0 < Umin < 1.
  Proof. unfold Umin. split; [apply exp_pos|]. rewrite <- exp_0. apply exp_increasing. lra. Qed.

  Hypothesis n2 : (2 <= n)%nat.
  Lemma n2R : 2 <= INR n.
  Proof. apply le_INR in n2. simpl in n2. lra. Qed.

  Lemma frac_eq : forall j, (j < n)%nat -> frac j = (INR n - INR j) / (INR n + 1).
  Proof.
    intros j H. unfold frac. pose proof n2R. rewrite !minus_INR by lia. simpl. field. lra.
  Qed.

  Lemma frac_range : forall j, (j < n)%nat -> 0 < frac j < 1.
  Proof.
    intros j H. rewrite frac_eq by auto. pose proof n2R. pose proof (lt_INR _ _ H). pose proof (pos_INR j).
    split.
    - apply Rdiv_lt_0_compat; lra.
    - apply (Rmult_lt_reg_r (INR n + 1)); [lra|]. unfold Rdiv. rewrite Rmult_assoc, Rinv_l by lra. lra.
  Qed.
  Lemma frac_dec : forall j k, (j < k < n)%nat -> frac k < frac j.
  Proof.
    intros j k H. rewrite !frac_eq by lia. pose proof n2R. assert (INR j < INR k) by (apply lt_INR; lia).
    unfold Rdiv. apply Rmult_lt_compat_r; [apply Rinv_0_lt_compat; lra|lra].
  Qed.

  Lemma u_range : forall j, (j < n)%nat -> Umin < Umin + (1 - Umin) * frac j < 1.
  Proof. intros j H. pose proof (frac_range j H). pose proof umin_range. nra. Qed.

  Lemma xval_exp : forall j, (j < n)%nat -> exp (xval j) = exp bottom + (exp top - exp bottom) * ((INR n - INR j) / (INR n + 1)).
  Proof.
    intros j H. unfold xval. rewrite exp_plus, exp_ln.
    - rewrite frac_eq by auto. replace (exp bottom) with (exp top * Umin).
      + ring.
      + unfold Umin. rewrite <- exp_plus. f_equal. ring.
    - pose proof (u_range j H). pose proof umin_range. lra.
  Qed.

  Lemma xval_range : forall j, (j < n)%nat -> bottom < xval j < top.
  Proof.
    intros j H. pose proof (u_range j H) as U. pose proof umin_range as V. unfold xval. split.
    - assert (ln Umin < ln (Umin + (1 - Umin) * frac j)) by (apply ln_increasing; lra).
      unfold Umin at 1 in H0. rewrite ln_exp in H0. lra.
    - assert (ln (Umin + (1 - Umin) * frac j) < ln 1) by (apply ln_increasing; lra).
      rewrite ln_1 in H0. lra.
  Qed.
  Lemma xval_dec : forall j k, (j < k < n)%nat -> xval k < xval j.
  Proof.
    intros j k H. unfold xval. pose proof (frac_dec j k H). pose proof umin_range.
    assert (k < n)%nat by lia. pose proof (u_range k H2).
    apply Rplus_lt_compat_l, ln_increasing; nra.
  Qed.
End Masses.

Definition rightv top bottom n j := if Nat.eqb j 0 then top else xval top bottom n (j - 1).
Definition leftv top bottom n j := if Nat.eqb j (n - 1) then bottom else xval top bottom n (j + 1).

Lemma left_right : forall top bottom n j, bottom < top -> (j < n)%nat ->
  leftv top bottom n j < rightv top bottom n j.
Proof.
  intros top bottom n j H J. unfold leftv, rightv.
  destruct (Nat.eqb_spec j 0), (Nat.eqb_spec j (n - 1)).
  - lra.
  - apply xval_range; lia || auto.
  - apply xval_range; lia || auto.
  - apply xval_dec; lia || auto.
Qed.

Lemma logx_this_nth : forall top bottom n j, bottom < top -> (j < n)%nat ->
  nth_error (logx_this top (exp (bottom - top)) n) j =
  Some (if Nat.eqb n 1 then None else Some (xval top bottom n j)).
Proof.
  intros top bottom n j H J. unfold logx_this.
  rewrite nth_error_map_ok with (a := j).
  - unfold mass_fraction. destruct (Nat.eqb_spec n 1); [reflexivity|].
    assert (N : (2 <= n)%nat) by lia.
    pose proof (u_range top bottom H n N j J) as U. pose proof (umin_range top bottom H).
    unfold frac in U. destruct (Rlt_dec _ _) as [_|Q]; [|exfalso; apply Q; lra]. reflexivity.
  - rewrite nth_error_nth' with (d := O) by (rewrite seq_length; lia). rewrite seq_nth by lia. f_equal.
Qed.

Lemma store_entry_ok : forall top bottom n j m, bottom < top -> (j < n)%nat ->
  store_entry top bottom (logx_this top (exp (bottom - top)) n) n j m =
  Ok (m_id m, ((if Nat.eqb n 1 then None else Some (xval top bottom n j)),
               Some (ln (1 / 2) + ln (exp (rightv top bottom n j) - exp (leftv top bottom n j))))).
Proof.
  intros top bottom n j m H J. unfold store_entry, get.
  pose proof (left_right top bottom n j H J) as LR.
  unfold leftv, rightv in *.
  rewrite (logx_this_nth top bottom n j) by auto.
  destruct (Nat.eqb_spec n 1) as [->|N1].
  - assert (j = 0)%nat by lia. subst j. simpl. rewrite (logdiffexp_ok exp) by auto. reflexivity.
  - destruct (Nat.eqb_spec j 0), (Nat.eqb_spec j (n - 1)); try lia.
    + rewrite (logx_this_nth top bottom n (j + 1)) by (auto; lia). destruct (Nat.eqb_spec n 1); [lia|]. cbn [bind].
      rewrite (logdiffexp_ok exp) by auto. reflexivity.
    + rewrite (logx_this_nth top bottom n (j - 1)) by (auto; lia). destruct (Nat.eqb_spec n 1); [lia|]. cbn [bind].
      rewrite (logdiffexp_ok exp) by auto. reflexivity.
    + rewrite (logx_this_nth top bottom n (j + 1)), (logx_this_nth top bottom n (j - 1)) by (auto; lia).
      destruct (Nat.eqb_spec n 1); [lia|]. cbn [bind].
      rewrite (logdiffexp_ok exp) by auto. reflexivity.
Qed.
