(** Facts about the distribution of the posterior sample and the sums. *)
From Coq Require Import Reals ZArith List Bool Arith Lia Lra Permutation.
From Verif Require Import CPrelude SemisepModel RecModel.
Import ListNotations.
Open Scope nat_scope.

(** Row [m] of a flat array with [np] numbers per row. *)
Definition row {A} (np : nat) (l : list A) (m : nat) : list A := firstn np (skipn (m * np) l).

Lemma slice_ok : forall {A} (l : list A) a n, a + n <= length l -> slice l a n = Ok (firstn n (skipn a l)).
Proof. intros. unfold slice. destruct (Nat.leb_spec (a + n) (length l)); [reflexivity|lia]. Qed.
Lemma blit_ok : forall {A} (l : list A) a d, a + length d <= length l ->
  blit l a d = Ok (firstn a l ++ d ++ skipn (a + length d) l).
Proof. intros. unfold blit. destruct (Nat.leb_spec (a + length d) (length l)); [reflexivity|lia]. Qed.
Lemma skipn_skipn' : forall {A} a b (l : list A), skipn a (skipn b l) = skipn (a + b) l.
Proof.
  intros A a b. revert a. induction b as [|b IH]; intros a l; [rewrite Nat.add_0_r; reflexivity|].
  destruct l as [|x l]; [rewrite !skipn_nil; reflexivity|]. rewrite Nat.add_succ_r. cbn [skipn]. apply IH.
Qed.
Lemma skipn_firstn' : forall {A} a b (l : list A), skipn a (firstn b l) = firstn (b - a) (skipn a l).
Proof. intros. apply skipn_firstn_comm. Qed.

Lemma avg_le : forall n T, 1 <= T -> n / T * T <= n.
Proof. intros n T H. rewrite Nat.mul_comm. apply Nat.mul_div_le. lia. Qed.
(** Rows left over by the equal division. *)
Definition extra (n T : nat) : nat := n - n / T * T.
Lemma ps_task0 : forall n T, 1 <= T -> ps_task n T 0 = n / T + extra n T.
Proof.
  intros n T H. unfold ps_task, ps_average, extra. cbn [Nat.eqb].
  assert (L := avg_le n T H). replace (n / T * (T - 1)) with (n / T * T - n / T) by nia. 
  assert (n / T <= n / T * T) by nia. lia.
Qed.
Definition idx (n T r : nat) : list nat := seq (extra n T + r * (n / T)) (n / T) ++ (if r =? 0 then seq 0 (extra n T) else []).
Lemma length_idx : forall n T r, 1 <= T -> length (idx n T r) = ps_task n T r.
Proof.
  intros n T r H. unfold idx. rewrite app_length, seq_length. destruct r as [|r].
  - cbn [Nat.eqb]. rewrite seq_length, ps_task0; auto.
  - cbn [Nat.eqb length]. unfold ps_task. cbn [Nat.eqb]. unfold ps_average. lia.
Qed.

Section Dist.
Variable A : Type.
Variables (junk : A) (n np T : nat) (all : list A).
Hypothesis HT : 1 <= T.
Hypothesis HL : length all = n * np.
Let avg := n / T.
Let ex := extra n T.
Lemma exavg : ex + T * avg = n.
Proof. unfold ex, extra, avg. assert (L := avg_le n T HT). lia. Qed.
Lemma scatter_ok : forall r, r < T -> scatter_part n np T r all = Ok (firstn (avg * np) (skipn ((ex + r * avg) * np) all)).
Proof.
  intros r R. unfold scatter_part. rewrite ps_task0 by auto. unfold ps_average. fold avg ex.
  replace (avg + ex - avg) with ex by lia. assert (E := exavg).
  rewrite slice_ok.
  - do 3 f_equal. nia.
  - rewrite HL. assert ((ex + r * avg + avg) <= n) by nia. nia.
Qed.
Lemma task_sample_ok : forall r, r < T ->
  task_sample junk n np T r all = Ok (firstn (avg * np) (skipn ((ex + r * avg) * np) all) ++ (if r =? 0 then firstn (ex * np) all else [])).
Proof.
  intros r R. unfold task_sample. rewrite scatter_ok by auto. cbn [bind].
  assert (E := exavg).
  assert (LP : length (firstn (avg * np) (skipn ((ex + r * avg) * np) all)) = avg * np).
  { rewrite firstn_length, skipn_length, HL. assert ((ex + r * avg + avg) <= n) by nia. nia. }
  set (part := firstn (avg * np) (skipn ((ex + r * avg) * np) all)) in *.
  assert (LT : avg <= ps_task n T r).
  { destruct r; [rewrite ps_task0 by auto; fold avg; lia|]. unfold ps_task, ps_average. cbn [Nat.eqb]. fold avg. lia. }
  rewrite blit_ok by (rewrite repeat_length, LP; cbn [Nat.add]; nia). cbn [bind firstn app Nat.add]. rewrite LP.
  destruct r as [|r]; cbn [Nat.eqb].
  - rewrite ps_task0 by auto. unfold ps_average. fold avg ex. replace (avg + ex - avg) with ex by lia.
    rewrite slice_ok by (rewrite HL; cbn [Nat.add]; nia). cbn [bind skipn].
    assert (LF : length (firstn (ex * np) all) = ex * np) by (rewrite firstn_length, HL; nia).
    rewrite blit_ok.
    + f_equal. rewrite LF. rewrite firstn_app. rewrite <- LP at 1. rewrite firstn_all. rewrite LP, Nat.sub_diag. cbn [firstn]. rewrite app_nil_r.
      f_equal. rewrite skipn_all2; [apply app_nil_r|]. rewrite app_length, LP, skipn_length, repeat_length. nia.
    + rewrite LF, app_length, LP, skipn_length, repeat_length. nia.
  - f_equal. f_equal. rewrite skipn_all2; auto. rewrite repeat_length. unfold ps_task, ps_average. cbn [Nat.eqb]. fold avg. lia.
Qed.
Lemma row_task : forall r buf m, r < T -> task_sample junk n np T r all = Ok buf -> m < ps_task n T r ->
  row np buf m = row np all (nth m (idx n T r) 0).
Proof.
  intros r buf m R E M. rewrite task_sample_ok in E by auto. injection E as <-.
  assert (X := exavg).
  assert (LP : length (firstn (avg * np) (skipn ((ex + r * avg) * np) all)) = avg * np).
  { rewrite firstn_length, skipn_length, HL. assert ((ex + r * avg + avg) <= n) by nia. nia. }
  unfold row, idx. fold avg ex. destruct (Nat.lt_ge_cases m avg) as [L|L].
  - rewrite app_nth1 by (rewrite seq_length; auto). rewrite seq_nth by auto.
    rewrite skipn_app. rewrite LP. replace (m * np - avg * np) with 0 by nia. cbn [skipn].
    rewrite firstn_app, skipn_length, LP. replace (np - (avg * np - m * np)) with 0 by nia. cbn [firstn]. rewrite app_nil_r.
    rewrite skipn_firstn', firstn_firstn, skipn_skipn'. replace (Nat.min np (avg * np - m * np)) with np by nia.
    do 2 f_equal. nia.
  - rewrite app_nth2 by (rewrite seq_length; auto). rewrite seq_length.
    destruct r as [|r]; cbn [Nat.eqb].
    + rewrite ps_task0 in M by auto. fold avg ex in M. rewrite seq_nth by lia. cbn [Nat.add].
      rewrite skipn_app, LP. rewrite skipn_all2 by (rewrite LP; nia). cbn [app].
      rewrite skipn_firstn', firstn_firstn. replace (Nat.min np (ex * np - (m * np - avg * np))) with np.
      * do 2 f_equal. nia.
      * assert (m - avg < ex) by lia. assert ((m - avg + 1) * np <= ex * np) by nia. nia.
    + unfold ps_task, ps_average in M. cbn [Nat.eqb] in M. fold avg in M. lia.
Qed.
Lemma length_task : forall r buf, r < T -> task_sample junk n np T r all = Ok buf -> length buf = ps_task n T r * np.
Proof.
  intros r buf R E. rewrite task_sample_ok in E by auto. injection E as <-. assert (X := exavg).
  rewrite app_length, firstn_length, skipn_length, HL. assert ((ex + r * avg + avg) <= n) by nia.
  destruct r as [|r]; cbn [Nat.eqb].
  - rewrite ps_task0 by auto. fold avg ex. rewrite firstn_length, HL. nia.
  - unfold ps_task, ps_average. cbn [Nat.eqb length]. fold avg. nia.
Qed.
End Dist.

Lemma concat_seq : forall a b k, concat (map (fun r => seq (b + r * a) a) (seq 0 k)) = seq b (k * a).
Proof.
  intros a b k. induction k as [|k IH]; [reflexivity|].
  rewrite seq_S, map_app, concat_app, IH. cbn [map concat Nat.add]. rewrite app_nil_r.
  replace (S k * a) with (k * a + a) by lia. rewrite seq_app. reflexivity.
Qed.
Lemma idx_all : forall n T, 1 <= T -> Permutation (concat (map (idx n T) (seq 0 T))) (seq 0 n).
Proof.
  intros n T H. assert (L := avg_le n T H).
  assert (P : Permutation (concat (map (idx n T) (seq 0 T))) (concat (map (fun r => seq (extra n T + r * (n / T)) (n / T)) (seq 0 T)) ++ seq 0 (extra n T))).
  { destruct T as [|k]; [lia|]. cbn [seq map concat]. unfold idx at 1. cbn [Nat.eqb].
    assert (E : map (idx n (S k)) (seq 1 k) = map (fun r => seq (extra n (S k) + r * (n / S k)) (n / S k)) (seq 1 k)).
    { apply map_ext_in. intros r R. apply in_seq in R. unfold idx. destruct r; [lia|]. cbn [Nat.eqb]. apply app_nil_r. }
    rewrite E. rewrite <- !app_assoc. apply Permutation_app_head. apply Permutation_app_comm. }
  rewrite P, concat_seq. rewrite Permutation_app_comm. unfold extra.
  replace (seq 0 n) with (seq 0 ((n - n / T * T) + T * (n / T))) by (f_equal; lia).
  rewrite seq_app. apply Permutation_refl.
Qed.

(** ** Sums, for any arithmetic. *)
Section Gen.
Variable F : Type.
Variable ops : arith F.
Lemma updF_same : forall (a : nat -> F) i v, updF a i v i = v.
Proof. intros. unfold updF. rewrite Nat.eqb_refl. reflexivity. Qed.
Lemma updF_other : forall (a : nat -> F) i v k, k <> i -> updF a i v k = a k.
Proof. intros. unfold updF. destruct (Nat.eqb_spec k i); congruence. Qed.
(** A loop touching each index of a range once, seen through a field. *)
Lemma for_pt : forall (St : Type) (proj : St -> nat -> F) (g : nat -> F -> F) body
  (HB : forall k s j, proj (body k s) j = if j =? k then g j (proj s j) else proj s j) lo n s j,
  proj (for_ lo n body s) j = if (lo <=? j) && (j <? lo + n) then g j (proj s j) else proj s j.
Proof.
  intros St proj g body HB lo n. revert lo. induction n as [|n IH]; intros lo s j.
  - unfold for_. cbn [seq fold_left]. destruct (Nat.leb_spec lo j), (Nat.ltb_spec j (lo + 0)); cbn [andb]; auto; lia.
  - unfold for_ in *. cbn [seq fold_left]. rewrite IH, HB.
    destruct (Nat.eqb_spec j lo) as [->|N].
    + destruct (Nat.leb_spec (S lo) lo); [lia|]. cbn [andb]. destruct (Nat.leb_spec lo lo), (Nat.ltb_spec lo (lo + S n)); cbn [andb]; auto; lia.
    + destruct (Nat.leb_spec (S lo) j), (Nat.ltb_spec j (S lo + n)), (Nat.leb_spec lo j), (Nat.ltb_spec j (lo + S n)); cbn [andb]; auto; lia.
Qed.
Lemma for_id : forall (St : Type) (proj : St -> nat -> F) body (HB : forall k s j, proj (body k s) j = proj s j) lo n s j,
  proj (for_ lo n body s) j = proj s j.
Proof.
  intros St proj body HB lo n. revert lo. induction n as [|n IH]; intros lo s j; [reflexivity|].
  unfold for_ in *. cbn [seq fold_left]. rewrite IH, HB. reflexivity.
Qed.
Definition total (l : list nat) : nat := fold_right Nat.add 0 l.
Lemma fold_curves : forall (St : Type) (proj : St -> nat -> F) (g : nat -> F -> F) body
  (HB : forall k s j, proj (body k s) j = if j =? k then g j (proj s j) else proj s j) nall np s j,
  proj (snd (fold_left (fun c n => let '(np, s) := c in (np + n, for_ np n body s)) nall (np, s))) j =
  if (np <=? j) && (j <? np + total nall) then g j (proj s j) else proj s j.
Proof.
  intros St proj g body HB nall. induction nall as [|n r IH]; intros np s j; cbn [fold_left total fold_right].
  - cbn [snd]. destruct (Nat.leb_spec np j), (Nat.ltb_spec j (np + 0)); cbn [andb]; auto; lia.
  - rewrite IH, (for_pt St proj g body HB). fold (total r).
    destruct (Nat.leb_spec (np + n) j), (Nat.ltb_spec j (np + n + total r)), (Nat.leb_spec np j), (Nat.ltb_spec j (np + n)), (Nat.ltb_spec j (np + (n + total r))); cbn [andb]; auto; lia.
Qed.
Lemma fold_curves_id : forall (St : Type) (proj : St -> nat -> F) body (HB : forall k s j, proj (body k s) j = proj s j) nall np s j,
  proj (snd (fold_left (fun c n => let '(np, s) := c in (np + n, for_ np n body s)) nall (np, s))) j = proj s j.
Proof.
  intros St proj body HB nall. induction nall as [|n r IH]; intros np s j; [reflexivity|]. cbn [fold_left].
  rewrite IH. apply for_id; auto.
Qed.
Variables (nall : list nat) (nq : nat).
Lemma add_row_fb : forall r s k, fb (add_row ops nall nq r s) k = if k <? total nall then aadd ops (fb s k) (rf r k) else fb s k.
Proof.
  intros. unfold add_row. rewrite (for_id _ (@fb F)) by reflexivity.
  rewrite (fold_curves _ (@fb F) (fun k v => aadd ops v (rf r k))); [reflexivity|].
  intros k0 s0 j. cbn [add_point fb]. unfold updF. destruct (Nat.eqb_spec j k0); subst; auto.
Qed.
Lemma add_row_fs : forall r s k, fs (add_row ops nall nq r s) k = if k <? total nall then aadd ops (fs s k) (amul ops (rf r k) (rf r k)) else fs s k.
Proof.
  intros. unfold add_row. rewrite (for_id _ (@fs F)) by reflexivity.
  rewrite (fold_curves _ (@fs F) (fun k v => aadd ops v (amul ops (rf r k) (rf r k)))); [reflexivity|].
  intros k0 s0 j. cbn [add_point fs]. unfold updF. destruct (Nat.eqb_spec j k0); subst; auto.
Qed.
Lemma add_row_fm : forall r s k, fm (add_row ops nall nq r s) k = if k <? total nall then amax ops (fm s k) (rfe r k) else fm s k.
Proof.
  intros. unfold add_row. rewrite (for_id _ (@fm F)) by reflexivity.
  rewrite (fold_curves _ (@fm F) (fun k v => amax ops v (rfe r k))); [reflexivity|].
  intros k0 s0 j. cbn [add_point fm]. unfold updF. destruct (Nat.eqb_spec j k0); subst; auto.
Qed.
Lemma add_row_yb : forall r s k, yb (add_row ops nall nq r s) k = if k <? nq * length nall then aadd ops (yb s k) (ry r k) else yb s k.
Proof.
  intros. unfold add_row. rewrite (for_pt _ (@yb F) (fun k v => aadd ops v (ry r k))).
  - cbn [Nat.leb andb Nat.add]. rewrite (fold_curves_id _ (@yb F)) by reflexivity. reflexivity.
  - intros k0 s0 j. cbn [add_trend yb]. unfold updF. destruct (Nat.eqb_spec j k0); subst; auto.
Qed.
Lemma add_row_ys : forall r s k, ys (add_row ops nall nq r s) k = if k <? nq * length nall then aadd ops (ys s k) (amul ops (ry r k) (ry r k)) else ys s k.
Proof.
  intros. unfold add_row. rewrite (for_pt _ (@ys F) (fun k v => aadd ops v (amul ops (ry r k) (ry r k)))).
  - cbn [Nat.leb andb Nat.add]. rewrite (fold_curves_id _ (@ys F)) by reflexivity. reflexivity.
  - intros k0 s0 j. cbn [add_trend ys]. unfold updF. destruct (Nat.eqb_spec j k0); subst; auto.
Qed.
Lemma task_sums_ok : forall num_ps np T r rec buf, length buf = ps_task num_ps T r * np ->
  task_sums ops num_ps np T r nall nq rec buf =
  Ok (fold_left (fun s m => add_row ops nall nq (rec (row np buf m)) s) (seq 0 (ps_task num_ps T r)) (sums0 ops)).
Proof.
  intros num_ps np T r rec buf L. unfold task_sums.
  assert (B : forall m, In m (seq 0 (ps_task num_ps T r)) -> m < ps_task num_ps T r) by (intros m M; apply in_seq in M; lia).
  revert B. generalize (seq 0 (ps_task num_ps T r)) as l. generalize (sums0 ops) as s. intros s l. revert s.
  induction l as [|m l IH]; intros s B; [reflexivity|]. cbn [fold_left bind].
  rewrite slice_ok by (rewrite L; assert (m < ps_task num_ps T r) by (apply B; left; auto); nia). cbn [bind].
  apply IH. intros m' M. apply B. right. auto.
Qed.
(** A field of the sums over some rows. *)
Lemma field_sum : forall (proj : sums F -> nat -> F) (size : nat) (val : recon F -> nat -> F) (op : F -> F -> F)
  (HP : forall r s k, proj (add_row ops nall nq r s) k = if k <? size then op (proj s k) (val r k) else proj s k)
  (H0 : forall k, proj (sums0 ops) k = a0 ops)
  {X} (recs : X -> recon F) (l : list X) k, k < size ->
  proj (fold_left (fun s m => add_row ops nall nq (recs m) s) l (sums0 ops)) k = fold_left (fun v m => op v (val (recs m) k)) l (a0 ops).
Proof.
  intros proj size val op HP H0 X recs l k K. rewrite <- (H0 k). generalize (sums0 ops) as s.
  induction l as [|m l IH]; intros s; [reflexivity|]. cbn [fold_left]. rewrite IH, HP.
  destruct (Nat.ltb_spec k size); [reflexivity|lia].
Qed.
Lemma sequence_ok : forall {X} (l : list X) (f : X -> outcome (sums F)) g, (forall x, In x l -> f x = Ok (g x)) -> sequence (map f l) = Ok (map g l).
Proof.
  intros X l f g H. induction l as [|x l IH]; [reflexivity|]. cbn [map sequence]. rewrite H by (left; auto). cbn [bind].
  rewrite IH by (intros y Y; apply H; right; auto). reflexivity.
Qed.
End Gen.
