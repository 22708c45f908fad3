(** Properties C47, C48 and C59: normalisation, reconstruction from the posterior
    sample, times of reconstruction. *)
From Coq Require Import Reals ZArith List Bool Arith Lia Lra Permutation.
From Coq Require Import Floats.SpecFloat.
From Verif Require Import CPrelude SemisepModel RecModel RecProofs.
Import ListNotations.
Open Scope nat_scope.

(** ** C48.  [row np l m] is the [m]-th row of [np] numbers of the flat array [l].
    Every task gets a full buffer of rows of the sample; taken together the tasks
    hold every row number exactly once, and no access leaves an array. *)
Theorem C48_each_row_once : forall (A : Type) (junk : A) num_ps np T all, 1 <= T -> length all = num_ps * np ->
  exists number : nat -> list nat,
    (forall r, r < T -> exists buf,
       task_sample junk num_ps np T r all = Ok buf /\
       length (number r) = ps_task num_ps T r /\
       length buf = ps_task num_ps T r * np /\
       forall m, m < ps_task num_ps T r -> row np buf m = row np all (nth m (number r) 0)) /\
    Permutation (concat (map number (seq 0 T))) (seq 0 num_ps).
Proof.
  intros A junk n np T all HT HL. exists (idx n T). split; [|apply idx_all; auto].
  intros r R. eexists. split; [apply task_sample_ok; auto|]. split; [apply length_idx; auto|].
  split; [apply (length_task A junk n np T all HT HL r _ R); apply task_sample_ok; auto|].
  intros m M. apply (row_task A junk n np T all HT HL r _ m R); auto. apply task_sample_ok; auto.
Qed.
(** Five rows of two numbers over three tasks; two rows over three tasks. *)
Example C48_each_row_once_case :
  map (fun r => task_sample 99 5 2 3 r [10; 11; 20; 21; 30; 31; 40; 41; 50; 51]) [0; 1; 2] =
    [Ok [30; 31; 10; 11; 20; 21]; Ok [40; 41]; Ok [50; 51]] /\
  map (fun r => task_sample 99 2 2 3 r [10; 11; 20; 21]) [0; 1; 2] = [Ok [10; 11; 20; 21]; Ok []; Ok []].
Proof. split; reflexivity. Qed.
Print Assumptions C48_each_row_once.

(** Mean, spread and largest of a list of numbers. *)
Open Scope R_scope.
Definition Rsum (l : list R) : R := fold_right Rplus 0 l.
Definition mean_of (l : list R) : R := Rsum l / INR (length l).
Definition variance_of (l : list R) : R := Rsum (map (fun x => (x - mean_of l) ^ 2) l) / INR (length l).
(** The largest of 0 and the numbers. *)
Definition largest (l : list R) : R := fold_right Rmax 0 l.

Lemma Rsum_app : forall l l', Rsum (l ++ l') = Rsum l + Rsum l'.
Proof. unfold Rsum. induction l as [|x l IH]; intros l'; cbn [app fold_right]; [lra|]. rewrite IH. lra. Qed.
Lemma Rsum_perm : forall l l', Permutation l l' -> Rsum l = Rsum l'.
Proof. unfold Rsum. intros l l' P. induction P; cbn [fold_right] in *; lra. Qed.
Lemma Rsum_concat : forall ls, Rsum (concat ls) = Rsum (map Rsum ls).
Proof. induction ls as [|l ls IH]; [reflexivity|]. cbn [concat map]. rewrite Rsum_app, IH. reflexivity. Qed.
Lemma Rsum_scale : forall l a, Rsum (map (fun x => a * x) l) = a * Rsum l.
Proof. unfold Rsum. induction l as [|x l IH]; intros a; cbn [map fold_right]; [lra|]. rewrite IH. lra. Qed.
Lemma largest_ge0 : forall l, 0 <= largest l.
Proof. induction l as [|x l IH]; cbn [largest fold_right]; [lra|]. fold (largest l). apply Rle_trans with (largest l); auto. apply Rmax_r. Qed.
Lemma largest_app : forall l l', largest (l ++ l') = Rmax (largest l) (largest l').
Proof.
  induction l as [|x l IH]; intros l'; cbn [app largest fold_right].
  - fold (largest l'). rewrite Rmax_right; auto. apply largest_ge0.
  - fold (largest (l ++ l')) (largest l). rewrite IH. symmetry. rewrite <- Rmax_assoc. reflexivity.
Qed.
Lemma largest_perm : forall l l', Permutation l l' -> largest l = largest l'.
Proof.
  intros l l' P. induction P; cbn [largest fold_right] in *; unfold largest in *; try congruence.
  rewrite !Rmax_assoc. f_equal. apply Rmax_comm.
Qed.
Lemma largest_concat : forall ls, largest (concat ls) = largest (map largest ls).
Proof. induction ls as [|l ls IH]; [reflexivity|]. cbn [concat map]. rewrite largest_app, IH. reflexivity. Qed.
(** [largest] is what its name says. *)
Lemma largest_spec : forall l, (forall x, In x l -> x <= largest l) /\ (largest l = 0 \/ In (largest l) l).
Proof.
  induction l as [|x l [IH1 IH2]]; [split; [intros x []|left; reflexivity]|]. cbn [largest fold_right]. fold (largest l). split.
  - intros y [->|Y]; [apply Rmax_l|]. apply Rle_trans with (largest l); auto. apply Rmax_r.
  - unfold Rmax. destruct (Rle_dec x (largest l)); [destruct IH2; [left|right; right]; auto|right; left; auto].
Qed.
Lemma fold_plus : forall {X} (g : X -> R) l a, fold_left (fun v m => v + g m) l a = a + Rsum (map g l).
Proof. unfold Rsum. induction l as [|x l IH]; intros a; cbn [fold_left map fold_right]; [lra|]. rewrite IH. lra. Qed.
Lemma fold_max : forall {X} (g : X -> R) l a, 0 <= a -> fold_left (fun v m => Rmax v (g m)) l a = Rmax a (largest (map g l)).
Proof.
  induction l as [|x l IH]; intros a A; cbn [fold_left map largest fold_right]; [rewrite Rmax_left; auto|].
  rewrite IH by (apply Rle_trans with a; auto; apply Rmax_l). fold (largest (map g l)). rewrite Rmax_assoc. reflexivity.
Qed.
Lemma reduce_plus : forall l, reduce Rarith Rplus l = Rsum l.
Proof.
  intros [|x l]; [reflexivity|]. cbn [reduce]. change (fold_left Rplus l x) with (fold_left (fun v m => v + id m) l x).
  rewrite fold_plus. rewrite map_id. reflexivity.
Qed.
Lemma reduce_max : forall l, (forall x, In x l -> 0 <= x) -> reduce Rarith Rmax l = largest l.
Proof.
  intros [|x l] H; [reflexivity|]. cbn [reduce]. change (fold_left Rmax l x) with (fold_left (fun v m => Rmax v (id m)) l x).
  rewrite fold_max by (apply H; left; auto). rewrite map_id. reflexivity.
Qed.
Lemma variance_ge0 : forall l, 0 <= variance_of l.
Proof.
  intros l. unfold variance_of. generalize (mean_of l) as m. intros m.
  assert (S : forall l, 0 <= Rsum (map (fun x => (x - m) ^ 2) l)).
  { clear. induction l as [|x l IH]; cbn [map Rsum fold_right]; [lra|]. fold (Rsum (map (fun x => (x - m) ^ 2) l)). assert (P := pow2_ge_0 (x - m)). lra. }
  destruct l as [|x l]; [cbn; unfold Rdiv; rewrite Rmult_0_l; lra|].
  apply Rmult_le_pos; auto. apply Rlt_le, Rinv_0_lt_compat, lt_0_INR. cbn [length]. lia.
Qed.
Lemma variance_moments : forall l, l <> [] -> Rsum (map (fun x => x * x) l) / INR (length l) - mean_of l * mean_of l = variance_of l.
Proof.
  intros l N. assert (P : 0 < INR (length l)) by (destruct l; [congruence|]; apply lt_0_INR; cbn [length]; lia).
  assert (G : forall m l, Rsum (map (fun x => (x - m) ^ 2) l) = Rsum (map (fun x => x * x) l) - 2 * m * Rsum l + INR (length l) * (m * m)).
  { clear. intros m l. induction l as [|x l IH]; cbn [map Rsum fold_right length]; [cbn [INR]; lra|].
    fold (Rsum (map (fun x => (x - m) ^ 2) l)) (Rsum (map (fun x => x * x) l)) (Rsum l). rewrite IH, S_INR. ring. }
  unfold variance_of. rewrite G. unfold mean_of. field. lra.
Qed.

(** The values of one output point over all rows of the sample. *)
Definition column {V} (value : recon R -> nat -> V) (rec : list R -> recon R) (num_ps np : nat) (all : list R) (k : nat) : list V :=
  map (fun m => value (rec (row np all m)) k) (seq 0 num_ps).

Section Rec.
Variables (junk : R) (num_ps np T : nat) (order nall : list nat) (nq : nat) (rec : list R -> recon R) (all : list R).
Hypothesis HT : (1 <= T)%nat.
Hypothesis HL : length all = (num_ps * np)%nat.
Hypothesis HO : Permutation order (seq 0 T).
Definition part (r : nat) : sums R :=
  fold_left (fun s m => add_row Rarith nall nq (rec (row np all m)) s) (idx num_ps T r) (sums0 Rarith).
Lemma part_ok : forall r, In r order -> (buf <- task_sample junk num_ps np T r all ;; task_sums Rarith num_ps np T r nall nq rec buf) = Ok (part r).
Proof using HT HL HO.
  intros r R. assert (B : (r < T)%nat). { eapply Permutation_in in R; [|exact HO]. apply in_seq in R. lia. }
  destruct (task_sample junk num_ps np T r all) as [buf| | |] eqn:E; try (rewrite task_sample_ok in E by auto; discriminate).
  cbn [bind]. rewrite task_sums_ok by (eapply length_task; eauto). f_equal. unfold part.
  assert (L := length_idx num_ps T r HT).
  transitivity (fold_left (fun s m => add_row Rarith nall nq (rec (row np all m)) s) (map (fun m => nth m (idx num_ps T r) 0%nat) (seq 0 (ps_task num_ps T r))) (sums0 Rarith)).
  - assert (Q : forall m, In m (seq 0 (ps_task num_ps T r)) -> (m < ps_task num_ps T r)%nat) by (intros m M; apply in_seq in M; lia).
    revert Q. generalize (seq 0 (ps_task num_ps T r)) as l. generalize (sums0 Rarith) as s. intros s l. revert s.
    induction l as [|m l IH]; intros s Q; [reflexivity|]. cbn [fold_left map].
    rewrite (row_task _ junk num_ps np T all HT HL r buf m B E (Q m (or_introl eq_refl))). apply IH. intros m' M'. apply Q. right. auto.
  - f_equal. rewrite <- L. clear. generalize (idx num_ps T r) as l. intros l.
    apply nth_ext with (d := 0%nat) (d' := 0%nat); rewrite map_length, seq_length; auto. intros i I.
    rewrite (nth_indep _ 0%nat (nth 0 l 0%nat)) by (rewrite map_length, seq_length; auto).
    rewrite (map_nth (fun m => nth m l 0%nat)). rewrite seq_nth; auto.
Qed.
Lemma all_rows : Permutation (concat (map (idx num_ps T) order)) (seq 0 num_ps).
Proof using HT HO.
  rewrite <- (idx_all num_ps T HT). assert (P : Permutation (map (idx num_ps T) order) (map (idx num_ps T) (seq 0 T))) by (apply Permutation_map; auto).
  clear -P. induction P; cbn [concat]; auto.
  - apply Permutation_app_head; auto.
  - rewrite !app_assoc. apply Permutation_app_tail. apply Permutation_app_comm.
  - eapply Permutation_trans; eauto.
Qed.
Lemma sum_field : forall (proj : sums R -> nat -> R) size (val : recon R -> nat -> R)
  (HP : forall r s k, proj (add_row Rarith nall nq r s) k = if (k <? size)%nat then proj s k + val r k else proj s k)
  (H0 : forall k, proj (sums0 Rarith) k = 0) k, (k < size)%nat ->
  reduce Rarith Rplus (map (fun s => proj s k) (map part order)) = Rsum (column val rec num_ps np all k).
Proof using HT HO.
  intros proj size val HP H0 k K. rewrite reduce_plus, map_map. unfold column.
  assert (E : Rsum (map (fun r => proj (part r) k) order) = Rsum (map Rsum (map (fun r => map (fun m => val (rec (row np all m)) k) (idx num_ps T r)) order))).
  { f_equal. rewrite map_map. apply map_ext. intros r. unfold part.
    rewrite (field_sum R Rarith nall nq proj size val Rplus HP H0 (fun m => rec (row np all m)) _ k K).
    cbn [a0 Rarith]. rewrite fold_plus. lra. }
  rewrite E, <- Rsum_concat. rewrite <- (map_map (idx num_ps T) (map (fun m => val (rec (row np all m)) k))), <- concat_map.
  apply Rsum_perm, Permutation_map, all_rows.
Qed.
Lemma max_field : forall k, (k < total nall)%nat ->
  reduce Rarith Rmax (map (fun s => fm s k) (map part order)) = largest (column rfe rec num_ps np all k).
Proof using HT HO.
  intros k K. rewrite map_map. unfold column.
  assert (E : forall r, fm (part r) k = largest (map (fun m => rfe (rec (row np all m)) k) (idx num_ps T r))).
  { intros r. unfold part.
    rewrite (field_sum R Rarith nall nq (@fm R) (total nall) (@rfe R) Rmax (add_row_fm R Rarith nall nq) (fun _ => eq_refl) (fun m => rec (row np all m)) _ k K).
    cbn [a0 Rarith]. rewrite fold_max by lra. rewrite Rmax_right; auto. apply largest_ge0. }
  rewrite reduce_max.
  - rewrite (map_ext _ _ E). rewrite <- (map_map (fun r => map (fun m => rfe (rec (row np all m)) k) (idx num_ps T r)) largest), <- largest_concat.
    rewrite <- (map_map (idx num_ps T) (map (fun m => rfe (rec (row np all m)) k))), <- concat_map.
    apply largest_perm, Permutation_map, all_rows.
  - intros x X. apply in_map_iff in X. destruct X as (r & <- & _). rewrite E. apply largest_ge0.
Qed.
End Rec.

Lemma column_map : forall value (f : R -> R) rec n np all k,
  column (fun r k => f (value r k)) rec n np all k = map f (column value rec n np all k).
Proof. intros. unfold column. rewrite map_map. reflexivity. Qed.

Lemma nth_curves : forall num_ps s nall scale np j n c k, nth_error nall j = Some n -> nth_error scale j = Some c -> (k < n)%nat ->
  let i := (np + fold_right Nat.add 0 (firstn j nall) + k)%nat in
  exists cur, nth_error (curves_out Rarith num_ps s np nall scale) j = Some cur /\ length cur = n /\
    nth_error cur k = Some (best_of Rarith num_ps (fb s i) * c, Rmax (std_of Rarith num_ps (fb s i) (fs s i)) (fm s i) * c).
Proof.
  induction nall as [|n0 nall IH]; intros scale np j n c k N C K i; [destruct j; discriminate|].
  destruct scale as [|c0 scale]; [destruct j; discriminate|]. destruct j as [|j]; cbn [nth_error] in N, C.
  - injection N as ->. injection C as ->. cbn [curves_out nth_error]. eexists. split; [reflexivity|].
    split; [rewrite map_length, seq_length; auto|]. rewrite nth_error_map. 
    rewrite (nth_error_nth' _ 0%nat) by (rewrite seq_length; auto). rewrite seq_nth by auto. cbn [option_map].
    subst i. cbn [firstn fold_right Nat.add]. rewrite Nat.add_0_r. reflexivity.
  - cbn [curves_out nth_error]. destruct (IH scale (np + n0)%nat j n c k N C K) as (cur & E1 & E2 & E3).
    exists cur. split; auto. split; auto. rewrite E3. subst i. cbn [firstn fold_right].
    replace (np + n0 + fold_right Nat.add 0 (firstn j nall) + k)%nat with (np + (n0 + fold_right Nat.add 0 (firstn j nall)) + k)%nat by lia. reflexivity.
Qed.
Lemma nth_curve_length : forall num_ps s nall scale np j n c, nth_error nall j = Some n -> nth_error scale j = Some c ->
  exists cur, nth_error (curves_out Rarith num_ps s np nall scale) j = Some cur /\ length cur = n.
Proof.
  induction nall as [|n0 nall IH]; intros scale np j n c N C; [destruct j; discriminate|].
  destruct scale as [|c0 scale]; [destruct j; discriminate|]. destruct j as [|j]; cbn [nth_error] in N, C.
  - injection N as ->. eexists. split; [reflexivity|]. rewrite map_length, seq_length. reflexivity.
  - cbn [curves_out nth_error]. eapply IH; eauto.
Qed.
Lemma nth_trend : forall num_ps nq s scale j0 j c k, nth_error scale j = Some c -> (k < nq)%nat ->
  let i := ((j0 + j) * nq + k)%nat in
  nth_error (trend_out Rarith num_ps nq s j0 scale) (j * nq + k) =
    Some (best_of Rarith num_ps (yb s i) * c, std_of Rarith num_ps (yb s i) (ys s i) * c).
Proof.
  induction scale as [|c0 scale IH]; intros j0 j c k C K i; [destruct j; discriminate|].
  cbn [trend_out]. destruct j as [|j]; cbn [nth_error] in C.
  - injection C as ->. cbn [Nat.mul Nat.add]. rewrite nth_error_app1 by (rewrite map_length, seq_length; auto).
    rewrite nth_error_map, (nth_error_nth' _ 0%nat) by (rewrite seq_length; auto). rewrite seq_nth by auto. cbn [option_map].
    subst i. rewrite Nat.add_0_r. reflexivity.
  - rewrite nth_error_app2 by (rewrite map_length, seq_length; nia). rewrite map_length, seq_length.
    replace (S j * nq + k - nq)%nat with (j * nq + k)%nat by nia. rewrite (IH (S j0) j c k C K).
    subst i. replace (S j0 + j)%nat with (j0 + S j)%nat by lia. reflexivity.
Qed.
Lemma total_part : forall nall j n, nth_error nall j = Some n -> (fold_right Nat.add 0 (firstn j nall) + n <= total nall)%nat.
Proof.
  induction nall as [|n0 nall IH]; intros j n E; [destruct j; discriminate|]. destruct j as [|j]; cbn [nth_error firstn fold_right total] in *.
  - injection E as ->. fold (total nall). lia.
  - specialize (IH j n E). unfold total in *. lia.
Qed.
Lemma curves_length : forall num_ps s nall scale np, length nall = length scale -> length (curves_out Rarith num_ps s np nall scale) = length nall.
Proof. induction nall as [|n nall IH]; intros [|c scale] np L; cbn [curves_out length] in *; try lia. rewrite IH; lia. Qed.
Lemma trend_length : forall num_ps nq s scale j, length (trend_out Rarith num_ps nq s j scale) = (length scale * nq)%nat.
Proof. induction scale as [|c scale IH]; intros j; [reflexivity|]. cbn [trend_out]. rewrite app_length, map_length, seq_length, IH. cbn [length]. lia. Qed.

Section Out.
Variables (junk : R) (num_ps np T : nat) (order nall : list nat) (nq : nat) (rec : list R -> recon R) (all : list R).
Hypothesis HT : (1 <= T)%nat.
Hypothesis HN : (1 <= num_ps)%nat.
Hypothesis HL : length all = (num_ps * np)%nat.
Hypothesis HO : Permutation order (seq 0 T).
Let col {V} (value : recon R -> nat -> V) k := column value rec num_ps np all k.
Definition reduced_sums : sums R :=
  let parts := map (part num_ps np T nall nq rec all) order in
  Sums (fun k => reduce Rarith Rplus (map (fun s => fb s k) parts)) (fun k => reduce Rarith Rplus (map (fun s => fs s k) parts))
       (fun k => reduce Rarith Rmax (map (fun s => fm s k) parts)) (fun k => reduce Rarith Rplus (map (fun s => yb s k) parts))
       (fun k => reduce Rarith Rplus (map (fun s => ys s k) parts)).
Lemma reduced_ok : reduced Rarith junk num_ps np T order nall nq rec all = Ok reduced_sums.
Proof using HT HL HO.
  unfold reduced. rewrite (sequence_ok R order _ (part num_ps np T nall nq rec all)) by (intros r R; apply (part_ok junk num_ps np T order nall nq rec all HT HL HO); auto). reflexivity.
Qed.
Lemma length_col : forall V (value : recon R -> nat -> V) k, length (col value k) = num_ps.
Proof using . clear. intros. unfold col, column. rewrite map_length, seq_length. reflexivity. Qed.
Lemma col_nonempty : forall V (value : recon R -> nat -> V) k, col value k <> [].
Proof using HN. intros V value k E. assert (L := length_col V value k). rewrite E in L. cbn [length] in L. clear - L HN. lia. Qed.
Lemma out_flux : forall k, (k < total nall)%nat ->
  best_of Rarith num_ps (fb reduced_sums k) = mean_of (col rf k) /\
  fs reduced_sums k / INR num_ps - mean_of (col rf k) * mean_of (col rf k) = variance_of (col rf k) /\
  std_of Rarith num_ps (fb reduced_sums k) (fs reduced_sums k) = sqrt (variance_of (col rf k)) /\
  fm reduced_sums k = largest (col rfe k).
Proof using HT HN HO.
  intros k K. unfold reduced_sums. cbn [fb fs fm].
  assert (E1 := sum_field num_ps np T order nall nq rec all HT HO (@fb R) (total nall) (@rf R) (add_row_fb R Rarith nall nq) (fun _ => eq_refl) k K).
  assert (E2 := sum_field num_ps np T order nall nq rec all HT HO (@fs R) (total nall) (fun r k => rf r k * rf r k) (add_row_fs R Rarith nall nq) (fun _ => eq_refl) k K).
  rewrite E1, E2, (max_field num_ps np T order nall nq rec all HT HO k K).
  assert (B : best_of Rarith num_ps (Rsum (column rf rec num_ps np all k)) = mean_of (col rf k)).
  { unfold best_of, mean_of. rewrite length_col. reflexivity. }
  assert (V : Rsum (column (fun r k => rf r k * rf r k) rec num_ps np all k) / INR num_ps - mean_of (col rf k) * mean_of (col rf k) = variance_of (col rf k)).
  { rewrite <- variance_moments by apply col_nonempty. rewrite length_col. rewrite (column_map rf (fun x => x * x)). reflexivity. }
  split; [exact B|]. split; [exact V|]. split; [|reflexivity].
  unfold std_of. rewrite B. cbn [asqrt asub adiv amul aofnat Rarith]. rewrite V. reflexivity.
Qed.
Lemma out_trend : forall k, (k < nq * length nall)%nat ->
  best_of Rarith num_ps (yb reduced_sums k) = mean_of (col ry k) /\
  ys reduced_sums k / INR num_ps - mean_of (col ry k) * mean_of (col ry k) = variance_of (col ry k) /\
  std_of Rarith num_ps (yb reduced_sums k) (ys reduced_sums k) = sqrt (variance_of (col ry k)).
Proof using HT HN HO.
  intros k K. unfold reduced_sums. cbn [yb ys].
  assert (E1 := sum_field num_ps np T order nall nq rec all HT HO (@yb R) (nq * length nall) (@ry R) (add_row_yb R Rarith nall nq) (fun _ => eq_refl) k K).
  assert (E2 := sum_field num_ps np T order nall nq rec all HT HO (@ys R) (nq * length nall) (fun r k => ry r k * ry r k) (add_row_ys R Rarith nall nq) (fun _ => eq_refl) k K).
  rewrite E1, E2.
  assert (B : best_of Rarith num_ps (Rsum (column ry rec num_ps np all k)) = mean_of (col ry k)).
  { unfold best_of, mean_of. rewrite length_col. reflexivity. }
  assert (V : Rsum (column (fun r k => ry r k * ry r k) rec num_ps np all k) / INR num_ps - mean_of (col ry k) * mean_of (col ry k) = variance_of (col ry k)).
  { rewrite <- variance_moments by apply col_nonempty. rewrite length_col. rewrite (column_map ry (fun x => x * x)). reflexivity. }
  split; [exact B|]. split; [exact V|]. unfold std_of. rewrite B. cbn [asqrt asub adiv amul aofnat Rarith]. rewrite V. reflexivity.
Qed.
End Out.

(** What is written, for any number of tasks and any order of combining them:
    for point [k] of curve [j], the mean over all rows of the sample, times the
    factor of the curve, and the larger of the spread over the rows and of the
    largest single error, times the same factor; for the trend, mean and spread. *)
Theorem C48_result : forall junk num_ps np T order nall nq scale rec all,
  (1 <= T)%nat -> (1 <= num_ps)%nat -> length all = (num_ps * np)%nat -> Permutation order (seq 0 T) -> length nall = length scale ->
  exists curves trend, reconstruction Rarith junk num_ps np T order nall nq scale rec all = Ok (curves, trend) /\
    length curves = length nall /\ length trend = (length nall * nq)%nat /\
    forall j n c, nth_error nall j = Some n -> nth_error scale j = Some c ->
      (exists cur, nth_error curves j = Some cur /\ length cur = n) /\
      (forall k, (k < n)%nat -> exists cur, nth_error curves j = Some cur /\
         let i := (fold_right Nat.add 0 (firstn j nall) + k)%nat in
         let values := column rf rec num_ps np all i in
         nth_error cur k = Some (mean_of values * c, Rmax (sqrt (variance_of values)) (largest (column rfe rec num_ps np all i)) * c)) /\
      (forall k, (k < nq)%nat ->
         let values := column ry rec num_ps np all (j * nq + k) in
         nth_error trend (j * nq + k) = Some (mean_of values * c, sqrt (variance_of values) * c)).
Proof.
  intros junk num_ps np T order nall nq scale rec all HT HN HL HO LS. unfold reconstruction.
  rewrite reduced_ok by auto. cbn [bind]. set (s := reduced_sums num_ps np T order nall nq rec all).
  exists (curves_out Rarith num_ps s 0 nall scale), (trend_out Rarith num_ps nq s 0 scale). split; [reflexivity|].
  split; [apply curves_length; auto|]. split; [rewrite trend_length, LS; auto|].
  intros j n c N C. split; [|split].
  - apply nth_curve_length with c; auto.
  - intros k K. destruct (nth_curves num_ps s nall scale 0 j n c k N C K) as (cur & E1 & E2 & E3). exists cur. split; auto.
    cbn zeta in *. rewrite E3. cbn [Nat.add]. set (i := (fold_right Nat.add 0 (firstn j nall) + k)%nat).
    assert (I : (i < total nall)%nat) by (assert (X := total_part nall j n N); unfold i; lia).
    destruct (out_flux num_ps np T order nall nq rec all HT HN HO i I) as (F1 & F2 & F3 & F4).
    fold s in F1, F3, F4. rewrite F1, F3, F4. reflexivity.
  - intros k K. cbn zeta. rewrite (nth_trend num_ps nq s scale 0 j c k C K). cbn [Nat.add].
    assert (J : (j < length nall)%nat) by (apply nth_error_Some; congruence).
    assert (I : (j * nq + k < nq * length nall)%nat) by nia.
    destruct (out_trend num_ps np T order nall nq rec all HT HN HO _ I) as (F1 & F2 & F3).
    fold s in F1, F3. rewrite F1, F3. reflexivity.
Qed.
Print Assumptions C48_result.

Lemma list_ext : forall {A} (l l' : list A), length l = length l' -> (forall k, (k < length l)%nat -> nth_error l k = nth_error l' k) -> l = l'.
Proof.
  induction l as [|x l IH]; intros [|y l'] L H; cbn [length] in *; try lia; auto.
  assert (E := H 0%nat ltac:(lia)). cbn in E. injection E as ->. f_equal. apply IH; [lia|]. intros k K. apply (H (S k)). lia.
Qed.
(** The number of tasks, the order of combination and the content of fresh memory
    have no influence. *)
Theorem C48_independent : forall junk junk' num_ps np T T' order order' nall nq scale rec all,
  (1 <= T)%nat -> (1 <= T')%nat -> (1 <= num_ps)%nat -> length all = (num_ps * np)%nat ->
  Permutation order (seq 0 T) -> Permutation order' (seq 0 T') -> length nall = length scale ->
  reconstruction Rarith junk num_ps np T order nall nq scale rec all =
  reconstruction Rarith junk' num_ps np T' order' nall nq scale rec all.
Proof.
  intros junk junk' num_ps np T T' order order' nall nq scale rec all HT HT' HN HL HO HO' LS.
  destruct (C48_result junk num_ps np T order nall nq scale rec all HT HN HL HO LS) as (c & t & E & L1 & L2 & S).
  destruct (C48_result junk' num_ps np T' order' nall nq scale rec all HT' HN HL HO' LS) as (c' & t' & E' & L1' & L2' & S').
  rewrite E, E'. f_equal. f_equal.
  - apply list_ext; [congruence|]. intros j J. rewrite L1 in J.
    destruct (nth_error nall j) as [n|] eqn:N; [|apply nth_error_None in N; lia].
    destruct (nth_error scale j) as [s|] eqn:C; [|apply nth_error_None in C; lia].
    destruct (S j n s N C) as ((cur & A1 & A2) & A3 & _). destruct (S' j n s N C) as ((cur' & B1 & B2) & B3 & _).
    rewrite A1, B1. f_equal. apply list_ext; [congruence|]. intros k K. rewrite A2 in K.
    destruct (A3 k K) as (x & X1 & X2). destruct (B3 k K) as (y & Y1 & Y2). cbn zeta in X2, Y2. congruence.
  - apply list_ext; [congruence|]. intros k K. rewrite L2 in K.
    assert (Q : (nq <> 0)%nat) by (intros ->; lia). assert (D := Nat.div_mod k nq Q). assert (M := Nat.mod_upper_bound k nq Q).
    assert (J : (k / nq < length nall)%nat) by (apply Nat.div_lt_upper_bound; lia).
    destruct (nth_error nall (k / nq)) as [n|] eqn:N; [|apply nth_error_None in N; lia].
    destruct (nth_error scale (k / nq)) as [s|] eqn:C; [|apply nth_error_None in C; lia].
    destruct (S _ n s N C) as (_ & _ & A). destruct (S' _ n s N C) as (_ & _ & B). specialize (A (k mod nq) M). specialize (B (k mod nq) M). cbn zeta in A, B.
    replace k with (k / nq * nq + k mod nq)%nat by lia. congruence.
Qed.
(** The number under each square root is not negative. *)
Theorem C48_variance : forall junk num_ps np T order nall nq rec all,
  (1 <= T)%nat -> (1 <= num_ps)%nat -> length all = (num_ps * np)%nat -> Permutation order (seq 0 T) ->
  exists s, reduced Rarith junk num_ps np T order nall nq rec all = Ok s /\
    (forall k, (k < fold_right Nat.add 0 nall)%nat -> 0 <= fs s k / INR num_ps - (fb s k / INR num_ps) * (fb s k / INR num_ps)) /\
    (forall k, (k < nq * length nall)%nat -> 0 <= ys s k / INR num_ps - (yb s k / INR num_ps) * (yb s k / INR num_ps)).
Proof.
  intros junk num_ps np T order nall nq rec all HT HN HL HO. rewrite reduced_ok by auto. eexists. split; [reflexivity|]. split; intros k K.
  - destruct (out_flux num_ps np T order nall nq rec all HT HN HO k K) as (F1 & F2 & _).
    unfold best_of in F1. cbn [adiv aofnat Rarith] in F1. rewrite F1, F2. apply variance_ge0.
  - destruct (out_trend num_ps np T order nall nq rec all HT HN HO k K) as (F1 & F2 & _).
    unfold best_of in F1. cbn [adiv aofnat Rarith] in F1. rewrite F1, F2. apply variance_ge0.
Qed.
(** Three rows of one number over two tasks; the reconstruction is the number itself
    with error 1/2, the trend its double, the factor of the curve 10. *)
Example C48_case :
  let rec := fun r => Recon (fun _ => hd 0 r) (fun _ => 1 / 2) (fun _ => 2 * hd 0 r) in
  reconstruction Rarith 7 3 1 2 [1%nat; 0%nat] [1%nat] 1 [10] rec [1; 2; 6] =
    Ok ([[(30, Rmax (sqrt (14 / 3)) (1 / 2) * 10)]], [(60, sqrt (56 / 3) * 10)]).
Proof.
  cbn zeta. destruct (C48_result 7 3 1 2 [1%nat; 0%nat] [1%nat] 1 [10] (fun r => Recon (fun _ => hd 0 r) (fun _ => 1 / 2) (fun _ => 2 * hd 0 r)) [1; 2; 6]) as (c & t & E & L1 & L2 & S);
    [lia|lia|reflexivity|apply perm_swap|reflexivity|].
  rewrite E. destruct (S 0%nat 1%nat 10 eq_refl eq_refl) as ((cur & A1 & A2) & A3 & A4).
  destruct (A3 0%nat ltac:(lia)) as (cur' & B1 & B2). rewrite A1 in B1. injection B1 as <-. specialize (A4 0%nat ltac:(lia)).
  destruct c as [|c0 [|? ?]]; try discriminate L1. cbn in A1. injection A1 as ->.
  destruct cur as [|p [|? ?]]; try discriminate A2. destruct t as [|q [|? ?]]; try discriminate L2.
  cbn [nth_error firstn fold_right Nat.add Nat.mul] in B2, A4. injection B2 as ->. injection A4 as ->.
  do 2 f_equal.
  - do 2 f_equal. f_equal.
    + unfold mean_of, column, row, Rsum. cbn. lra.
    + f_equal. f_equal.
      * f_equal. unfold variance_of, mean_of, column, row, Rsum. cbn. lra.
      * unfold largest, column, row. cbn. unfold Rmax. repeat destruct Rle_dec; lra.
  - f_equal. f_equal.
    + unfold mean_of, column, row, Rsum. cbn. lra.
    + f_equal. f_equal. unfold variance_of, mean_of, column, row, Rsum. cbn. lra.
Qed.
Print Assumptions C48_independent. Print Assumptions C48_variance.

(** In doubles the variance can be negative: for three equal values 0.1 the spread
    of the trend written to trend.txt is NaN, where the true spread is 0. *)
Definition d_tenth : spec_float := SFdiv 53 1024 (d_ofnat 1) (d_ofnat 10).
Definition d_rec (r : list spec_float) : recon spec_float :=
  Recon (fun _ => hd S754_nan r) (fun _ => d_ofnat 0) (fun _ => hd S754_nan r).
Theorem C48_rounded_variance_refuted : exists rows curves v,
  reconstruction Darith S754_nan 3 1 1 [0%nat] [1%nat] 1 [d_ofnat 1] d_rec rows = Ok (curves, [(v, S754_nan)]) /\ rows = [d_tenth; d_tenth; d_tenth].
Proof. exists [d_tenth; d_tenth; d_tenth]. eexists. eexists. split; [vm_compute; reflexivity|reflexivity]. Qed.
(** In doubles the last bits depend on the number of tasks. *)
Theorem C48_rounded_independence_refuted : exists rows,
  reconstruction Darith S754_nan 4 1 1 [0%nat] [1%nat] 0 [d_ofnat 1] d_rec rows <>
  reconstruction Darith S754_nan 4 1 2 [0%nat; 1%nat] [1%nat] 0 [d_ofnat 1] d_rec rows.
Proof.
  exists [d_ofnat 1; d_tenth; d_ofnat 1; SFdiv 53 1024 (d_ofnat 1) (d_ofnat 3)]. vm_compute. intros H. discriminate H.
Qed.
Print Assumptions C48_rounded_variance_refuted. Print Assumptions C48_rounded_independence_refuted.
