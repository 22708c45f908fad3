(** The loops of the mixed model: sums over components, arrays filled through a
    work array. *)
From Coq Require Import Reals Lra Lia List Arith.
From Coquelicot Require Import Coquelicot.
From Verif Require Import SemisepModel SemisepProofs KernelModel KernelCalc KernelSpec KernelLift KernelGauss2 MixSpec MixModel.
Open Scope R_scope.

Lemma mixed_cl_sum n ty c taud tc tl (v : nat -> R) :
  (forall k, (k < n)%nat -> cov_cl (shape_of (ty k) (c k)) taud tc tl (v k)) ->
  cov_cl (mixed_response n ty c) taud tc tl (sumn n v).
Proof.
  intros H. unfold cov_cl, mixed_response. eapply wl_ext; [|apply wl_sum; exact H].
  intros a. cbv beta. rewrite Rmult_comm, <- sumn_scal. apply sumn_ext. intros. ring.
Qed.
Lemma mixed_ll_sum n ty1 c1 m ty2 c2 taud t1 t2 (inner : nat -> R -> R) (v : nat -> nat -> R) :
  (forall k2 a, (k2 < m)%nat -> cov_cl (shape_of (ty2 k2) (c2 k2)) taud (t1 - a) t2 (inner k2 a)) ->
  (forall k1 k2, (k1 < n)%nat -> (k2 < m)%nat -> whole_line (fun a => shape_of (ty1 k1) (c1 k1) a * inner k2 a) (v k1 k2)) ->
  cov_ll (mixed_response n ty1 c1) (mixed_response m ty2 c2) taud t1 t2 (sumn n (fun k1 => sumn m (fun k2 => v k1 k2))).
Proof.
  intros H1 H2. exists (fun a => sumn m (fun k2 => inner k2 a)). split.
  - intros a. apply (mixed_cl_sum m ty2 c2 taud (t1 - a) t2 (fun k2 => inner k2 a)). intros; apply H1; auto.
  - eapply wl_ext; [|apply wl_sum; intros k1 K1; apply wl_sum; intros k2 K2; apply (H2 k1 k2 K1 K2)].
    intros a. cbv beta. unfold mixed_response.
    rewrite Rmult_comm, <- sumn_scal. apply sumn_ext. intros k1 _.
    rewrite Rmult_comm, <- sumn_scal. reflexivity.
Qed.

(** accumulation in the first component of a pair of arrays *)
Lemma for_outer2 n K (body : nat -> arr * arr -> arr * arr) (inside : nat -> nat -> bool) (g : nat -> nat -> nat -> R) (s0 : arr * arr) :
  (forall k s r q, (k < K)%nat -> (q < n)%nat -> fst (body k s) (r * n + q)%nat = if inside r q then fst s (r * n + q)%nat + g k r q else fst s (r * n + q)%nat) ->
  forall r q, (q < n)%nat ->
  fst (for_ 0 K body s0) (r * n + q)%nat = if inside r q then fst s0 (r * n + q)%nat + sumn K (fun k => g k r q) else fst s0 (r * n + q)%nat.
Proof.
  intros B r q Q.
  pose proof (for_inv (arr * arr) (fun i b => forall r q, (q < n)%nat -> fst b (r * n + q)%nat = if inside r q then fst s0 (r * n + q)%nat + sumn i (fun k => g k r q) else fst s0 (r * n + q)%nat) 0 K body s0) as G.
  cbv beta in G. rewrite Nat.add_0_l in G. apply G; [| |exact Q].
  - intros r' q' Q'. cbn [sumn]. destruct (inside r' q'); ring.
  - intros i s Hi IH r' q' Q'. rewrite B, IH by (exact Q' || lia). cbn [sumn]. destruct (inside r' q'); ring.
Qed.
Lemma flat_pass N (b a : arr) i : for_ 0 N (fun i S => upd S i (S i + b i)) a i = if (i <? N)%nat then a i + b i else a i.
Proof.
  pose proof (for_inv arr (fun m S => forall i, S i = if (i <? m)%nat then a i + b i else a i) 0 N (fun i S => upd S i (S i + b i)) a) as G.
  cbv beta in G. rewrite Nat.add_0_l in G. apply G; [reflexivity|]. clear i G.
  intros m S _ IH i. unfold upd. destruct (Nat.eqb_spec i m) as [->|NE].
  - rewrite IH, Nat.ltb_irrefl, (proj2 (Nat.ltb_lt m (Datatypes.S m))) by lia. reflexivity.
  - rewrite IH. destruct (Nat.ltb_spec i m), (Nat.ltb_spec i (Datatypes.S m)); try reflexivity; lia.
Qed.

Section Loops.
Variables log_erfc erfc : R -> R.
Variable icp : nat -> nat.
Variable ilp : nat -> nat -> nat.
Variable n : nat.
Variable ty : nat -> nat.
Notation cmp pm nds nls := (stored exp pm (ilp nds nls)).
Notation taud_of pm nds := (exp (pm (icp nds + 2)%nat)).

Definition one_val (f : onefun) pm nds nls k Dt :=
  let c := cmp pm nds nls k in f (taud_of pm nds) (area c) (centre c) (width c) Dt.
Definition pair_val (f : pairfun) pm nds nls1 nls2 k1 k2 t1 t2 :=
  let c1 := cmp pm nds nls1 k1 in let c2 := cmp pm nds nls2 k2 in
  f (taud_of pm nds) (area c1) (centre c1) (width c1) (area c2) (centre c2) (width c2) t1 t2.
Lemma one_of_val f pm nds nls k Dt : one_of icp ilp f pm nds nls k Dt = one_val f pm nds nls k Dt.
Proof. unfold one_of, one_val, stored. cbn [area centre width]. rewrite Nat.add_0_r. reflexivity. Qed.
Lemma pair_of_val f pm nds a b k1 k2 t1 t2 : pair_of icp ilp f pm nds a b k1 k2 t1 t2 = pair_val f pm nds a b k1 k2 t1 t2.
Proof. unfold pair_of, pair_val, stored. cbn [area centre width]. rewrite !Nat.add_0_r, !(Nat.mul_comm _ 3). reflexivity. Qed.

Lemma Slc_mmap_sum tcon tline pm nds nls :
  Slc_mmap log_erfc icp ilp n ty tcon tline pm nds nls = sumn n (fun k => one_val (nth (ty k) (FP_Slc log_erfc) no_one) pm nds nls k (tline - tcon)).
Proof. unfold Slc_mmap. rewrite for_acc, Rplus_0_l. apply sumn_ext. intros. apply one_of_val. Qed.
Lemma Sll2_mmap_sum t1 t2 pm nds a b :
  Sll2_mmap log_erfc erfc icp ilp n ty t1 t2 pm nds a b
  = sumn n (fun k1 => sumn n (fun k2 => pair_val (nth (ty k1 * 4 + ty k2) (FP_Sll log_erfc erfc) no_pair) pm nds a b k1 k2 t1 t2)).
Proof.
  unfold Sll2_mmap.
  rewrite (for_ext 0 n _ (fun k1 s => s + sumn n (fun k2 => pair_val (nth (ty k1 * 4 + ty k2) (FP_Sll log_erfc erfc) no_pair) pm nds a b k1 k2 t1 t2))).
  - rewrite for_acc, Rplus_0_l. reflexivity.
  - intros k1 s. rewrite for_acc. f_equal. apply sumn_ext. intros. apply pair_of_val.
Qed.
Lemma Sll_mmap_is t1 t2 pm nds a : Sll_mmap log_erfc erfc icp ilp n ty t1 t2 pm nds a = Sll2_mmap log_erfc erfc icp ilp n ty t1 t2 pm nds a a.
Proof. reflexivity. Qed.

(** the array routines and the scalar routines agree pair by pair *)
Lemma one_table t T f c w D : nth t (FP_Slc_array log_erfc) no_one T f c w D = nth t (FP_Slc log_erfc) no_one T f c w D.
Proof. destruct t as [|[|[|[|t]]]]; cbn [nth FP_Slc FP_Slc_array]; try reflexivity. apply slc1_array_gauss_eq. Qed.
Lemma exp_gam_array_eq T f1 c1 w1 f2 c2 w2 D : 0 < T -> 0 < w2 ->
  mix_exp_gam_array T f1 c1 w1 f2 c2 w2 D = mix_exp_gam T f1 c1 w1 f2 c2 w2 D.
Proof.
  intros T0 W2. unfold mix_exp_gam_array, mix_exp_gam, mix_exp_gam_with. cbv zeta.
  destruct (Rle_dec 0 _); [|reflexivity]. destruct (Rlt_dec EPS _); [reflexivity|].
  assert (P : (T + w2) / T / w2 <> 0). { apply Rgt_not_eq. repeat apply Rdiv_lt_0_compat; lra. }
  set (p := (T + w2) / T / w2) in *. f_equal. f_equal. f_equal. field. exact P.
Qed.
Lemma swapped'_eq k : forall T f1 c1 w1 f2 c2 w2 t1 t2, swapped' k T f1 c1 w1 f2 c2 w2 t1 t2 = swapped k T f1 c1 w1 f2 c2 w2 t1 t2.
Proof. intros. unfold swapped', swapped. f_equal. ring. Qed.
Lemma pair_table t T f1 c1 w1 f2 c2 w2 t1 t2 : 0 < T -> 0 < w1 -> 0 < w2 ->
  nth t (FP_Sll_array log_erfc erfc) no_pair T f1 c1 w1 f2 c2 w2 t1 t2 = nth t (FP_Sll log_erfc erfc) no_pair T f1 c1 w1 f2 c2 w2 t1 t2.
Proof.
  intros T0 W1 W2.
  do 16 (destruct t as [|t]; [cbn [nth FP_Sll FP_Sll_array]; try reflexivity; try apply swapped'_eq;
    try (rewrite swapped'_eq); unfold direct, swapped; first [apply sll1_array_gauss_eq|apply exp_gam_array_eq; assumption]|]).
  cbn [nth FP_Sll FP_Sll_array]. reflexivity.
Qed.
Lemma pair_table2 t T f1 c1 w1 f2 c2 w2 t1 t2 :
  nth t (FP_Sll2_array log_erfc erfc) no_pair T f1 c1 w1 f2 c2 w2 t1 t2 = nth t (FP_Sll log_erfc erfc) no_pair T f1 c1 w1 f2 c2 w2 t1 t2.
Proof.
  do 16 (destruct t as [|t]; [cbn [nth FP_Sll FP_Sll2_array]; try reflexivity; try apply swapped'_eq;
    unfold direct, swapped; apply sll1_array_gauss_eq|]).
  cbn [nth FP_Sll FP_Sll2_array]. reflexivity.
Qed.

Lemma Slc_array_mmap_entry tcon ncon tline nline pm nds nls Smat buf i j : (i < ncon)%nat -> (j < nline)%nat ->
  fst (Slc_array_mmap log_erfc icp ilp n ty tcon ncon tline nline pm nds nls Smat buf) (i * nline + j)%nat
  = Slc_mmap log_erfc icp ilp n ty (tcon i) (tline j) pm nds nls.
Proof.
  intros I J. unfold Slc_array_mmap. cbv zeta.
  rewrite (for_outer2 nline n _ (fun r q => (r <? ncon) && (q <? nline))%nat%bool
    (fun k r q => one_val (nth (ty k) (FP_Slc log_erfc) no_one) pm nds nls k (tline q - tcon r))).
  - rewrite (proj2 (Nat.ltb_lt i ncon) I), (proj2 (Nat.ltb_lt j nline) J). cbn [andb fst].
    pose proof (block_pass nline ncon (fun _ => nline) (fun _ _ _ => 0) Smat ltac:(intros; cbv beta; lia) i j J) as E0.
    cbv beta in E0. rewrite E0.
    rewrite (proj2 (Nat.ltb_lt i ncon) I), (proj2 (Nat.ltb_lt j nline) J). cbn [andb].
    rewrite Rplus_0_l, Slc_mmap_sum. reflexivity.
  - intros k [S B] r q _ Q. cbn [fst]. rewrite flat_pass.
    rewrite (proj2 (Nat.ltb_lt q nline) Q), Bool.andb_true_r.
    destruct (Nat.ltb_spec (r * nline + q) (ncon * nline)), (Nat.ltb_spec r ncon); try reflexivity; try (exfalso; nia).
    f_equal.
    rewrite (block_pass nline ncon (fun _ => nline) (fun i j _ => one_of icp ilp (nth (ty k) (FP_Slc_array log_erfc) no_one) pm nds nls k (tline j - tcon i)) B ltac:(intros; cbv beta; lia) r q Q).
    rewrite (proj2 (Nat.ltb_lt r ncon)), (proj2 (Nat.ltb_lt q nline) Q) by assumption. cbn [andb].
    rewrite one_of_val. unfold one_val. cbv zeta. apply one_table.
  - exact J.
Qed.

(** fill the work array, then add it: rows of length len r *)
Lemma fill_add cols rows (len : nat -> nat) (v : nat -> nat -> R) (S B : arr) : (forall i, (i < rows)%nat -> (len i <= cols)%nat) ->
  forall r q, (q < cols)%nat ->
  for_ 0 rows (fun i S => for_ 0 (len i) (fun j S => upd S (i * cols + j)%nat (S (i * cols + j)%nat +
     for_ 0 rows (fun i B => for_ 0 (len i) (fun j B => upd B (i * cols + j)%nat (v i j)) B) B (i * cols + j)%nat)) S) S (r * cols + q)%nat
  = if ((r <? rows) && (q <? len r))%nat%bool then S (r * cols + q)%nat + v r q else S (r * cols + q)%nat.
Proof.
  intros L r q Q.
  set (B' := for_ 0 rows (fun i B => for_ 0 (len i) (fun j B => upd B (i * cols + j)%nat (v i j)) B) B).
  rewrite (block_pass cols rows len (fun i j x => x + B' (i * cols + j)%nat) S L r q Q).
  destruct (r <? rows)%nat eqn:E1; cbn [andb]; [|reflexivity]. destruct (q <? len r)%nat eqn:E2; [|reflexivity].
  f_equal. unfold B'. rewrite (block_pass cols rows len (fun i j _ => v i j) B L r q Q), E1, E2. reflexivity.
Qed.
Lemma Sll2_array_mmap_entry tl1 n1 tl2 n2 pm nds a b Smat buf i j : (i < n1)%nat -> (j < n2)%nat ->
  fst (Sll2_array_mmap log_erfc erfc icp ilp n ty tl1 n1 tl2 n2 pm nds a b Smat buf) (i * n2 + j)%nat
  = Sll2_mmap log_erfc erfc icp ilp n ty (tl1 i) (tl2 j) pm nds a b.
Proof.
  intros I J. unfold Sll2_array_mmap. cbv zeta.
  rewrite (for_outer2 n2 n _ (fun r q => (r <? n1) && (q <? n2))%nat%bool
    (fun k1 r q => sumn n (fun k2 => pair_val (nth (ty k1 * 4 + ty k2) (FP_Sll log_erfc erfc) no_pair) pm nds a b k1 k2 (tl1 r) (tl2 q)))).
  - rewrite (proj2 (Nat.ltb_lt i n1) I), (proj2 (Nat.ltb_lt j n2) J). cbn [andb fst].
    pose proof (block_pass n2 n1 (fun _ => n2) (fun _ _ _ => 0) Smat ltac:(intros; cbv beta; lia) i j J) as E0.
    cbv beta in E0. rewrite E0.
    rewrite (proj2 (Nat.ltb_lt i n1) I), (proj2 (Nat.ltb_lt j n2) J). cbn [andb].
    rewrite Rplus_0_l, Sll2_mmap_sum. reflexivity.
  - intros k1 s r q _ Q.
    rewrite (for_outer2 n2 n _ (fun r q => (r <? n1) && (q <? n2))%nat%bool
      (fun k2 r q => pair_val (nth (ty k1 * 4 + ty k2) (FP_Sll log_erfc erfc) no_pair) pm nds a b k1 k2 (tl1 r) (tl2 q))); [reflexivity| |exact Q].
    intros k2 [S B] r' q' _ Q'. cbn [fst].
    rewrite (fill_add n2 n1 (fun _ => n2) (fun i j => pair_of icp ilp (nth (ty k1 * 4 + ty k2) (FP_Sll2_array log_erfc erfc) no_pair) pm nds a b k1 k2 (tl1 i) (tl2 j)) S B ltac:(intros; cbv beta; lia) r' q' Q').
    rewrite pair_of_val. unfold pair_val. cbv zeta. rewrite pair_table2. reflexivity.
  - exact J.
Qed.
Lemma Sll_array_mmap_entry tl nl pm nds a Smat buf i j : (i < nl)%nat -> (j < nl)%nat ->
  fst (Sll_array_mmap log_erfc erfc icp ilp n ty tl nl pm nds a Smat buf) (i * nl + j)%nat
  = if (j <=? i)%nat then Sll_mmap log_erfc erfc icp ilp n ty (tl i) (tl j) pm nds a else Smat (i * nl + j)%nat.
Proof.
  intros I J. unfold Sll_array_mmap. cbv zeta.
  assert (LE : (j <? i + 1)%nat = (j <=? i)%nat) by (destruct (Nat.ltb_spec j (i + 1)), (Nat.leb_spec j i); try reflexivity; lia).
  rewrite (for_outer2 nl n _ (fun r q => (r <? nl) && (q <? r + 1))%nat%bool
    (fun k1 r q => sumn n (fun k2 => pair_val (nth (ty k1 * 4 + ty k2) (FP_Sll log_erfc erfc) no_pair) pm nds a a k1 k2 (tl r) (tl q)))).
  - cbn [fst].
    pose proof (block_pass nl nl (fun i => (i + 1)%nat) (fun _ _ _ => 0) Smat ltac:(intros; cbv beta; lia) i j J) as E0.
    cbv beta in E0. rewrite E0.
    rewrite (proj2 (Nat.ltb_lt i nl) I), LE. cbn [andb]. destruct (j <=? i)%nat; [|reflexivity].
    rewrite Rplus_0_l, Sll_mmap_is, Sll2_mmap_sum. reflexivity.
  - intros k1 s r q _ Q.
    rewrite (for_outer2 nl n _ (fun r q => (r <? nl) && (q <? r + 1))%nat%bool
      (fun k2 r q => pair_val (nth (ty k1 * 4 + ty k2) (FP_Sll log_erfc erfc) no_pair) pm nds a a k1 k2 (tl r) (tl q))); [reflexivity| |exact Q].
    intros k2 [S B] r' q' _ Q'. cbn [fst].
    rewrite (fill_add nl nl (fun i => (i + 1)%nat) (fun i j => pair_of icp ilp (nth (ty k1 * 4 + ty k2) (FP_Sll_array log_erfc erfc) no_pair) pm nds a a k1 k2 (tl i) (tl j)) S B ltac:(intros; cbv beta; lia) r' q' Q').
    rewrite pair_of_val. unfold pair_val. cbv zeta. rewrite pair_table by apply exp_pos. reflexivity.
  - exact J.
Qed.
End Loops.
