(** Correctness of the merge sort for any callback that points in the right
    direction, and the three callbacks of the code. *)
From Coq Require Import ZArith List Bool Lia Arith Permutation Sorted.
From Verif Require Import CPrelude SortModel.
Import ListNotations.
Open Scope Z_scope.

Section SortProofs.
Context {A : Type} (cmp : A -> A -> Z).

Lemma merge_nil_r : forall l, merge cmp l [] = l.
Proof. destruct l; reflexivity. Qed.

Lemma merge_cons : forall a r1 b r2,
  merge cmp (a :: r1) (b :: r2) =
  if cmp a b <=? 0 then a :: merge cmp r1 (b :: r2) else b :: merge cmp (a :: r1) r2.
Proof. reflexivity. Qed.

Lemma merge_perm : forall l1 l2, Permutation (merge cmp l1 l2) (l1 ++ l2).
Proof.
  induction l1 as [|a r1 IH]; intros l2; [apply Permutation_refl|].
  induction l2 as [|b r2 IH2].
  - rewrite merge_nil_r, app_nil_r. apply Permutation_refl.
  - rewrite merge_cons. destruct (cmp a b <=? 0).
    + simpl. constructor. apply IH.
    + rewrite IH2. apply Permutation_cons_app. apply Permutation_refl.
Qed.

Lemma msort_fuel_perm : forall n l, Permutation (msort_fuel cmp n l) l.
Proof.
  induction n; intros l; simpl; [apply Permutation_refl|].
  destruct l as [|a [|b l]]; try apply Permutation_refl.
  set (L := a :: b :: l). rewrite merge_perm.
  rewrite (IHn (firstn _ L)), (IHn (skipn _ L)), firstn_skipn. apply Permutation_refl.
Qed.

Lemma msort_perm : forall l, Permutation (msort cmp l) l.
Proof. intros; apply msort_fuel_perm. Qed.

(** [before a b]: a may stand anywhere in front of b in the result. *)
Variable P : A -> Prop.
Variable before : A -> A -> Prop.
Hypothesis before_trans : forall a b c, P a -> P b -> P c -> before a b -> before b c -> before a c.
Hypothesis cmp_left : forall a b, P a -> P b -> cmp a b <= 0 -> before a b.
Hypothesis cmp_right : forall a b, P a -> P b -> 0 < cmp a b -> before b a.

Lemma merge_sorted : forall l1 l2, Forall P l1 -> Forall P l2 ->
  StronglySorted before l1 -> StronglySorted before l2 ->
  StronglySorted before (merge cmp l1 l2).
Proof.
  induction l1 as [|a r1 IH]; intros l2 P1 P2 S1 S2; [exact S2|].
  induction l2 as [|b r2 IH2]; [rewrite merge_nil_r; exact S1|].
  inversion P1; subst. inversion P2; subst. inversion S1; subst. inversion S2; subst.
  rewrite merge_cons. destruct (cmp a b <=? 0) eqn:E.
  - apply Z.leb_le in E. constructor; [apply IH; auto|].
    eapply Permutation_Forall; [apply Permutation_sym, merge_perm|].
    apply Forall_app. split; auto. constructor; auto.
    rewrite Forall_forall in *. intros x Hx. apply before_trans with b; auto.
  - apply Z.leb_gt in E. constructor; [apply IH2; auto|].
    eapply Permutation_Forall; [apply Permutation_sym, merge_perm|].
    apply Forall_app. split; [|auto]. constructor; auto.
    rewrite Forall_forall in *. intros x Hx. apply before_trans with a; auto.
Qed.

Lemma msort_fuel_sorted : forall n l, (length l <= n)%nat -> Forall P l ->
  StronglySorted before (msort_fuel cmp n l).
Proof.
  induction n; intros l Hl HP.
  - destruct l; simpl in *; [constructor|lia].
  - destruct l as [|a [|b l]]; [constructor|repeat constructor|].
    remember (a :: b :: l) as L eqn:EL.
    assert (Hd : msort_fuel cmp (S n) L =
      merge cmp (msort_fuel cmp n (firstn (Nat.div (length L) 2) L))
                (msort_fuel cmp n (skipn (Nat.div (length L) 2) L))) by (subst; reflexivity).
    rewrite Hd.
    assert (H2 : (2 <= length L)%nat) by (subst; simpl; lia).
    assert (H1 : (1 <= Nat.div (length L) 2)%nat) by (apply Nat.div_le_lower_bound; lia).
    assert (H3 : (Nat.div (length L) 2 < length L)%nat) by (apply Nat.div_lt; lia).
    assert (F1 : Forall P (firstn (Nat.div (length L) 2) L))
      by (rewrite <- (firstn_skipn (Nat.div (length L) 2) L) in HP; apply Forall_app in HP; tauto).
    assert (F2 : Forall P (skipn (Nat.div (length L) 2) L))
      by (rewrite <- (firstn_skipn (Nat.div (length L) 2) L) in HP; apply Forall_app in HP; tauto).
    apply merge_sorted.
    + eapply Permutation_Forall; [apply Permutation_sym, msort_fuel_perm|]; exact F1.
    + eapply Permutation_Forall; [apply Permutation_sym, msort_fuel_perm|]; exact F2.
    + apply IHn; auto. rewrite firstn_length. lia.
    + apply IHn; auto. rewrite skipn_length. lia.
Qed.

Lemma msort_sorted : forall l, Forall P l -> StronglySorted before (msort cmp l).
Proof. intros; apply msort_fuel_sorted; auto. Qed.
End SortProofs.

(** Not a NaN. *)
Definition numeric (d : dbl) : Prop := exists z, d = Val z.

(** Order on (value, tiebreaker). *)
Definition lik_ge (a b : lik) : Prop :=
  exists x y, lv a = Val x /\ lv b = Val y /\ (y < x \/ (x = y /\ tb b <= tb a)).

Lemma lik_ge_trans : forall a b c, lik_ge a b -> lik_ge b c -> lik_ge a c.
Proof.
  intros a b c (x & y & Ha & Hb & H1) (y' & z & Hb' & Hc & H2).
  rewrite Hb in Hb'. injection Hb' as <-. exists x, z. repeat split; auto. lia.
Qed.

Lemma dnest_cmp_left : forall a b, numeric (lv a) -> numeric (lv b) ->
  dnest_cmp a b <= 0 -> lik_ge a b.
Proof.
  intros a b [x Hx] [y Hy]. unfold dnest_cmp, dlt, deqb. rewrite Hx, Hy.
  destruct (y <? x) eqn:E1.
  - intros _. apply Z.ltb_lt in E1. exists x, y. auto.
  - destruct (x =? y) eqn:E2; destruct (tb b <? tb a) eqn:E3; simpl; intros H; try lia.
    apply Z.eqb_eq in E2. apply Z.ltb_lt in E3. exists x, y. repeat split; auto. lia.
Qed.

Lemma dnest_cmp_right : forall a b, numeric (lv a) -> numeric (lv b) ->
  0 < dnest_cmp a b -> lik_ge b a.
Proof.
  intros a b [x Hx] [y Hy]. unfold dnest_cmp, dlt, deqb. rewrite Hx, Hy.
  destruct (y <? x) eqn:E1; [simpl; lia|].
  apply Z.ltb_ge in E1.
  destruct (x =? y) eqn:E2; destruct (tb b <? tb a) eqn:E3; simpl; intros H; try lia;
    exists y, x; repeat split; auto; lia.
Qed.

Lemma dnest_sort_sorted : forall l, Forall (fun a => numeric (lv a)) l ->
  StronglySorted lik_ge (msort dnest_cmp l).
Proof.
  intros l H. apply msort_sorted with (P := fun a => numeric (lv a)); auto.
  - intros; eapply lik_ge_trans; eauto.
  - intros; apply dnest_cmp_left; auto.
  - intros; apply dnest_cmp_right; auto.
Qed.

Lemma cmp_sample_left : forall a b, numeric (lv a) -> numeric (lv b) ->
  cmp_sample a b <= 0 -> lik_ge b a.
Proof.
  intros a b [x Hx] [y Hy]. unfold cmp_sample, dlt, deqb. rewrite Hx, Hy.
  destruct (y <? x) eqn:E1; [lia|]. apply Z.ltb_ge in E1.
  destruct (x =? y) eqn:E2; destruct (tb b <? tb a) eqn:E3; simpl; intros H; try lia;
    exists y, x; repeat split; auto; lia.
Qed.

Lemma cmp_sample_right : forall a b, numeric (lv a) -> numeric (lv b) ->
  0 < cmp_sample a b -> lik_ge a b.
Proof.
  intros a b [x Hx] [y Hy]. unfold cmp_sample, dlt, deqb. rewrite Hx, Hy.
  destruct (y <? x) eqn:E1.
  - intros _. apply Z.ltb_lt in E1. exists x, y. auto.
  - destruct (x =? y) eqn:E2; destruct (tb b <? tb a) eqn:E3; simpl; intros H; try lia;
      exists x, y; repeat split; auto; lia.
Qed.

Lemma sample_sort_sorted : forall l, Forall (fun a => numeric (lv a)) l ->
  StronglySorted (fun a b => lik_ge b a) (msort cmp_sample l).
Proof.
  intros l H. apply msort_sorted with (P := fun a => numeric (lv a)); auto.
  - intros; eapply lik_ge_trans; eauto.
  - intros; apply cmp_sample_left; auto.
  - intros; apply cmp_sample_right; auto.
Qed.

Definition dbl_le (a b : dbl) : Prop := exists x y, a = Val x /\ b = Val y /\ x <= y.

Lemma mica_sort_sorted : forall l, Forall numeric l ->
  StronglySorted dbl_le (msort mica_cmp l).
Proof.
  intros l H. apply msort_sorted with (P := numeric); auto.
  - intros a b c _ _ _ (x & y & -> & -> & ?) (y' & z & E & -> & ?). injection E as <-.
    exists x, z. repeat split; auto; lia.
  - intros a b [x ->] [y ->]. unfold mica_cmp. destruct (y <=? x) eqn:E; [lia|].
    intros _. apply Z.leb_gt in E. exists x, y. repeat split; auto; lia.
  - intros a b [x ->] [y ->]. unfold mica_cmp. destruct (y <=? x) eqn:E; [|lia].
    intros _. apply Z.leb_le in E. exists y, x. repeat split; auto; lia.
Qed.
