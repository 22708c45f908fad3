(** From loops over components to sums, from component covariances to line
    covariances, and from array routines to scalar routines. *)
From Coq Require Import Reals Lra Lia Arith List.
From Verif Require Import SemisepModel SemisepProofs KernelCalc KernelSpec KernelModel.
Open Scope R_scope.

Lemma for_acc n (g : nat -> R) s : for_ 0 n (fun k a => a + g k) s = s + sumn n g.
Proof.
  pose proof (for_inv R (fun i b => b = s + sumn i g) 0 n (fun k a => a + g k) s) as G. cbv beta in G.
  rewrite Nat.add_0_l in G. apply G; [simpl; lra|]. intros i a _ ->. cbn [sumn]. ring.
Qed.
Lemma for_ext {St} lo n (f g : nat -> St -> St) s : (forall i s, f i s = g i s) -> for_ lo n f s = for_ lo n g s.
Proof.
  intros E. unfold for_. revert s. induction (seq lo n) as [|i l IH]; intros s; cbn; [reflexivity|].
  rewrite E. apply IH.
Qed.

(** sums and integrals *)
Lemma wl_sum n (f : nat -> R -> R) (v : nat -> R) :
  (forall k, (k < n)%nat -> whole_line (f k) (v k)) -> whole_line (fun a => sumn n (fun k => f k a)) (sumn n v).
Proof.
  induction n as [|n IH]; intros H; cbn [sumn]; [apply wl_zero|].
  apply wl_plus; [apply IH; intros; apply H; lia | apply H; lia].
Qed.
Lemma cov_cl_sum shape n c taud tc tl (v : nat -> R) :
  (forall k, (k < n)%nat -> cov_cl (shape (c k)) taud tc tl (v k)) ->
  cov_cl (response shape n c) taud tc tl (sumn n v).
Proof.
  intros H. unfold cov_cl, response. eapply wl_ext; [|apply wl_sum; exact H].
  intros a. cbv beta. rewrite Rmult_comm, <- sumn_scal. apply sumn_ext. intros. ring.
Qed.
Lemma cov_ll_sum shape n c1 m c2 taud t1 t2 (inner : nat -> R -> R) (v : nat -> nat -> R) :
  (forall k2 a, (k2 < m)%nat -> cov_cl (shape (c2 k2)) taud (t1 - a) t2 (inner k2 a)) ->
  (forall k1 k2, (k1 < n)%nat -> (k2 < m)%nat -> whole_line (fun a => shape (c1 k1) a * inner k2 a) (v k1 k2)) ->
  cov_ll (response shape n c1) (response shape m c2) taud t1 t2 (sumn n (fun k1 => sumn m (fun k2 => v k1 k2))).
Proof.
  intros H1 H2. exists (fun a => sumn m (fun k2 => inner k2 a)). split.
  - intros a. apply (cov_cl_sum shape m c2 taud (t1 - a) t2 (fun k2 => inner k2 a)). intros; apply H1; auto.
  - eapply wl_ext; [|apply wl_sum; intros k1 K1; apply wl_sum; intros k2 K2; apply (H2 k1 k2 K1 K2)].
    intros a. cbv beta. unfold response.
    rewrite Rmult_comm, <- sumn_scal. apply sumn_ext. intros k1 _.
    rewrite Rmult_comm, <- sumn_scal. reflexivity.
Qed.

Section Loops.
Variable amp : R -> R.
Variable idx_con_pm : nat -> nat.
Variable idx_line_pm : nat -> nat -> nat.
Variable num_gaussian : nat.
Notation taud_of pm nds := (exp (pm (idx_con_pm nds + 2)%nat)).
Notation cmp pm nds nls := (stored amp pm (idx_line_pm nds nls)).

Lemma Slc_of_sum one pm tcon tline nds nls :
  Slc_of amp idx_con_pm idx_line_pm num_gaussian one pm tcon tline nds nls
  = sumn num_gaussian (fun k => let c := cmp pm nds nls k in
      one (taud_of pm nds) (area c) (centre c) (width c) (tline - tcon)).
Proof.
  unfold Slc_of. cbv zeta. rewrite for_acc, Rplus_0_l. apply sumn_ext. intros k _. unfold stored. cbn [area centre width].
  rewrite Nat.add_0_r. reflexivity.
Qed.
Lemma Sll2_of_sum pair pm t1 t2 nds nls1 nls2 :
  Sll2_of amp idx_con_pm idx_line_pm num_gaussian pair pm t1 t2 nds nls1 nls2
  = sumn num_gaussian (fun k1 => sumn num_gaussian (fun k2 =>
      let c1 := cmp pm nds nls1 k1 in let c2 := cmp pm nds nls2 k2 in
      pair (taud_of pm nds) (area c1) (centre c1) (width c1) (area c2) (centre c2) (width c2) (t1 - t2))).
Proof.
  unfold Sll2_of. cbv zeta.
  rewrite (for_ext 0 num_gaussian _ (fun k1 s => s + sumn num_gaussian (fun k2 =>
      let c1 := cmp pm nds nls1 k1 in let c2 := cmp pm nds nls2 k2 in
      pair (taud_of pm nds) (area c1) (centre c1) (width c1) (area c2) (centre c2) (width c2) (t1 - t2)))).
  - rewrite for_acc, Rplus_0_l. reflexivity.
  - intros k1 s. rewrite for_acc. f_equal. apply sumn_ext. intros k2 _. unfold stored. cbv zeta. cbn [area centre width].
    rewrite !Nat.add_0_r, !(Nat.mul_comm 3). reflexivity.
Qed.

(** one accumulating or overwriting pass over a block whose row i has
    [len i] <= n entries *)
Lemma row_pass n (len : nat -> nat) i (f : nat -> nat -> R -> R) (a : arr) : (len i <= n)%nat ->
  forall r q, (q < n)%nat ->
  for_ 0 (len i) (fun j S => upd S (i * n + j)%nat (f i j (S (i * n + j)%nat))) a (r * n + q)%nat
  = if ((r =? i) && (q <? len i))%nat%bool then f i q (a (i * n + q)%nat) else a (r * n + q)%nat.
Proof.
  intros L r q Q.
  pose proof (for_inv arr (fun m b => forall r q, (q < n)%nat -> b (r * n + q)%nat
    = if ((r =? i) && (q <? m))%nat%bool then f i q (a (i * n + q)%nat) else a (r * n + q)%nat) 0 (len i)
    (fun j S => upd S (i * n + j)%nat (f i j (S (i * n + j)%nat))) a) as G.
  cbv beta in G. rewrite Nat.add_0_l in G. apply G; [| |exact Q]; clear r q Q G.
  - intros r q Q. cbn. rewrite Bool.andb_false_r. reflexivity.
  - intros m s Hm IH r q Q. unfold upd.
    destruct (Nat.eqb_spec (r * n + q)%nat (i * n + m)%nat) as [E|NE].
    + assert (r = i /\ q = m) as [-> ->].
      { assert (r = i) by nia. subst r. split; [reflexivity|lia]. }
      rewrite Nat.eqb_refl. rewrite (proj2 (Nat.ltb_lt m (S m))) by lia. cbn [andb].
      rewrite (IH i m Q). rewrite Nat.eqb_refl, Nat.ltb_irrefl. cbn [andb]. reflexivity.
    + rewrite (IH r q Q). destruct (Nat.eqb_spec r i) as [->|]; cbn [andb]; [|reflexivity].
      destruct (Nat.ltb_spec q m), (Nat.ltb_spec q (S m)); try reflexivity; try lia.
Qed.
Lemma block_pass n rows (len : nat -> nat) (f : nat -> nat -> R -> R) (a : arr) :
  (forall i, (i < rows)%nat -> (len i <= n)%nat) ->
  forall r q, (q < n)%nat ->
  for_ 0 rows (fun i S => for_ 0 (len i) (fun j S => upd S (i * n + j)%nat (f i j (S (i * n + j)%nat))) S) a (r * n + q)%nat
  = if ((r <? rows) && (q <? len r))%nat%bool then f r q (a (r * n + q)%nat) else a (r * n + q)%nat.
Proof.
  intros L r q Q.
  pose proof (for_inv arr (fun m b => forall r q, (q < n)%nat -> b (r * n + q)%nat
    = if ((r <? m) && (q <? len r))%nat%bool then f r q (a (r * n + q)%nat) else a (r * n + q)%nat) 0 rows
    (fun i S => for_ 0 (len i) (fun j S => upd S (i * n + j)%nat (f i j (S (i * n + j)%nat))) S) a) as G.
  cbv beta in G. rewrite Nat.add_0_l in G. apply G; [| |exact Q]; clear r q Q G.
  - intros r q Q. reflexivity.
  - intros m s Hm IH r q Q. rewrite row_pass by (auto; apply L; lia).
    rewrite !IH by assumption.
    destruct (Nat.eqb_spec r m) as [->|NE]; cbn [andb].
    + rewrite Nat.ltb_irrefl, (proj2 (Nat.ltb_lt m (S m))) by lia. cbn [andb]. reflexivity.
    + destruct (Nat.ltb_spec r m), (Nat.ltb_spec r (S m)); try reflexivity; lia.
Qed.

(** repeated accumulation over an outer loop *)
Lemma for_outer n K (body : nat -> arr -> arr) (inside : nat -> nat -> bool) (g : nat -> nat -> nat -> R) (a0 : arr) :
  (forall k a r q, (q < n)%nat -> body k a (r * n + q)%nat = if inside r q then a (r * n + q)%nat + g k r q else a (r * n + q)%nat) ->
  forall r q, (q < n)%nat ->
  for_ 0 K body a0 (r * n + q)%nat = if inside r q then a0 (r * n + q)%nat + sumn K (fun k => g k r q) else a0 (r * n + q)%nat.
Proof.
  intros B r q Q.
  pose proof (for_inv arr (fun i b => forall r q, (q < n)%nat -> b (r * n + q)%nat = if inside r q then a0 (r * n + q)%nat + sumn i (fun k => g k r q) else a0 (r * n + q)%nat) 0 K body a0) as G.
  cbv beta in G. rewrite Nat.add_0_l in G. apply G; [| |exact Q].
  - intros r' q' Q'. cbn [sumn]. destruct (inside r' q'); ring.
  - intros i s _ IH r' q' Q'. rewrite B, IH by exact Q'. cbn [sumn]. destruct (inside r' q'); ring.
Qed.

Lemma Slc_array_entry one tcon ncon tline nline pm nds nls Smat i j : (i < ncon)%nat -> (j < nline)%nat ->
  Slc_array_of amp idx_con_pm idx_line_pm num_gaussian one tcon ncon tline nline pm nds nls Smat (i * nline + j)%nat
  = Slc_of amp idx_con_pm idx_line_pm num_gaussian one pm (tcon i) (tline j) nds nls.
Proof.
  intros I J. unfold Slc_array_of. cbv zeta.
  rewrite (for_outer nline num_gaussian _ (fun r q => (r <? ncon) && (q <? nline))%nat%bool
    (fun k r q => let c := cmp pm nds nls k in one (taud_of pm nds) (area c) (centre c) (width c) (tline q - tcon r))).
  - rewrite (proj2 (Nat.ltb_lt i ncon) I), (proj2 (Nat.ltb_lt j nline) J). cbn [andb].
    pose proof (block_pass nline ncon (fun _ => nline) (fun _ _ _ => 0) Smat ltac:(intros; cbv beta; lia) i j J) as E0.
    cbv beta in E0. rewrite E0.
    rewrite (proj2 (Nat.ltb_lt i ncon) I), (proj2 (Nat.ltb_lt j nline) J). cbn [andb].
    rewrite Rplus_0_l, Slc_of_sum. reflexivity.
  - intros k a r q Q.
    rewrite (block_pass nline ncon (fun _ => nline) (fun i j x => x + one (taud_of pm nds) (amp (pm (idx_line_pm nds nls + 1 + 3 * k + 0)%nat)) (pm (idx_line_pm nds nls + 1 + 3 * k + 1)%nat) (exp (pm (idx_line_pm nds nls + 1 + 3 * k + 2)%nat)) (tline j - tcon i)) a ltac:(intros; lia) r q Q).
    unfold stored. cbv zeta. cbn [area centre width]. rewrite Nat.add_0_r. reflexivity.
  - exact J.
Qed.
Lemma Sll2_array_entry pair tline1 nline1 tline2 nline2 pm nds nls1 nls2 Smat i j : (i < nline1)%nat -> (j < nline2)%nat ->
  Sll2_array_of amp idx_con_pm idx_line_pm num_gaussian pair tline1 nline1 tline2 nline2 pm nds nls1 nls2 Smat (i * nline2 + j)%nat
  = Sll2_of amp idx_con_pm idx_line_pm num_gaussian pair pm (tline1 i) (tline2 j) nds nls1 nls2.
Proof.
  intros I J. unfold Sll2_array_of. cbv zeta.
  rewrite (for_outer nline2 num_gaussian _ (fun r q => (r <? nline1) && (q <? nline2))%nat%bool
    (fun k1 r q => sumn num_gaussian (fun k2 => let c1 := cmp pm nds nls1 k1 in let c2 := cmp pm nds nls2 k2 in
      pair (taud_of pm nds) (area c1) (centre c1) (width c1) (area c2) (centre c2) (width c2) (tline1 r - tline2 q)))).
  - rewrite (proj2 (Nat.ltb_lt i nline1) I), (proj2 (Nat.ltb_lt j nline2) J). cbn [andb].
    pose proof (block_pass nline2 nline1 (fun _ => nline2) (fun _ _ _ => 0) Smat ltac:(intros; cbv beta; lia) i j J) as E0.
    cbv beta in E0. rewrite E0.
    rewrite (proj2 (Nat.ltb_lt i nline1) I), (proj2 (Nat.ltb_lt j nline2) J). cbn [andb].
    rewrite Rplus_0_l, Sll2_of_sum. reflexivity.
  - intros k1 a r q Q.
    rewrite (for_outer nline2 num_gaussian _ (fun r q => (r <? nline1) && (q <? nline2))%nat%bool
      (fun k2 r q => let c1 := cmp pm nds nls1 k1 in let c2 := cmp pm nds nls2 k2 in
        pair (taud_of pm nds) (area c1) (centre c1) (width c1) (area c2) (centre c2) (width c2) (tline1 r - tline2 q))); [reflexivity| |exact Q].
    intros k2 b r' q' Q'.
    pose proof (block_pass nline2 nline1 (fun _ => nline2) (fun i j x => x + (let c1 := cmp pm nds nls1 k1 in let c2 := cmp pm nds nls2 k2 in
        pair (taud_of pm nds) (area c1) (centre c1) (width c1) (area c2) (centre c2) (width c2) (tline1 i - tline2 j))) b ltac:(intros; cbv beta; lia) r' q' Q') as E1.
    cbv beta zeta in E1. cbv zeta. rewrite <- E1. unfold stored. cbn [area centre width]. rewrite !Nat.add_0_r, !(Nat.mul_comm 3). reflexivity.
  - exact J.
Qed.
(** the lower triangle; entries above the diagonal keep what was there *)
Lemma Sll_array_entry pair tline nline pm nds nls Smat i j : (i < nline)%nat -> (j < nline)%nat ->
  Sll_array_of amp idx_con_pm idx_line_pm num_gaussian pair tline nline pm nds nls Smat (i * nline + j)%nat
  = if (j <=? i)%nat then Sll_of amp idx_con_pm idx_line_pm num_gaussian pair pm (tline i) (tline j) nds nls
    else Smat (i * nline + j)%nat.
Proof.
  intros I J. unfold Sll_array_of. cbv zeta.
  assert (LE : forall r q, ((r <? nline) && (q <? r + 1))%nat%bool = ((r <? nline) && (q <=? r))%nat%bool).
  { intros r q. f_equal. destruct (Nat.ltb_spec q (r + 1)), (Nat.leb_spec q r); try reflexivity; lia. }
  rewrite (for_outer nline num_gaussian _ (fun r q => (r <? nline) && (q <? r + 1))%nat%bool
    (fun k1 r q => sumn num_gaussian (fun k2 => let c1 := cmp pm nds nls k1 in let c2 := cmp pm nds nls k2 in
      pair (taud_of pm nds) (area c1) (centre c1) (width c1) (area c2) (centre c2) (width c2) (tline r - tline q)))).
  - pose proof (block_pass nline nline (fun i => (i + 1)%nat) (fun _ _ _ => 0) Smat ltac:(intros; cbv beta; lia) i j J) as E0.
    cbv beta in E0. rewrite E0. rewrite LE, (proj2 (Nat.ltb_lt i nline) I). cbn [andb].
    destruct (j <=? i)%nat; [|reflexivity].
    unfold Sll_of. rewrite Rplus_0_l, Sll2_of_sum. reflexivity.
  - intros k1 a r q Q.
    rewrite (for_outer nline num_gaussian _ (fun r q => (r <? nline) && (q <? r + 1))%nat%bool
      (fun k2 r q => let c1 := cmp pm nds nls k1 in let c2 := cmp pm nds nls k2 in
        pair (taud_of pm nds) (area c1) (centre c1) (width c1) (area c2) (centre c2) (width c2) (tline r - tline q))); [reflexivity| |exact Q].
    intros k2 b r' q' Q'.
    pose proof (block_pass nline nline (fun i => (i + 1)%nat) (fun i j x => x + (let c1 := cmp pm nds nls k1 in let c2 := cmp pm nds nls k2 in
        pair (taud_of pm nds) (area c1) (centre c1) (width c1) (area c2) (centre c2) (width c2) (tline i - tline j))) b ltac:(intros; cbv beta; lia) r' q' Q') as E1.
    cbv beta zeta in E1. cbv zeta. rewrite <- E1. unfold stored. cbn [area centre width]. rewrite !Nat.add_0_r, !(Nat.mul_comm 3). reflexivity.
  - exact J.
Qed.
End Loops.
