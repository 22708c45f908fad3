(** C82: what the reconstruction writes, from the posterior sample and the data to the
    printed numbers, for all data sets, in the general, mixed and ratio modes.  Real
    arithmetic, no rounding. *)
From Coq Require Import Reals List Arith Lia Lra Permutation ClassicalChoice.
From Coquelicot Require Import Coquelicot.
From Verif Require Import CPrelude SemisepModel SemisepProofs SemisepProofs2 MatBridge MatBridge2 SemisepProofs3 PartProofs PartProofs2 KernelCalc KernelSpec KernelModel KernelGauss2 PartModel
  CovModel LikeModel PredModel PropPart PropSemisep GlsAlgebra LikeProofs PropLike PredProofs PropPred.
From Verif Require Import PropCov MixSpec PropKernel MixModel PropMix PsdCore PsdKernel PropPsd EndModel VmapModel SetsModel PropSets OutModel.
From Verif Require EndProofs PropEnd PropVmap ParamModel ParamSpec ParamProofs ParamProofs2 SmallModel PropSmall PropParam RecModel RecProofs PropRec PropNorm.
Import ListNotations.
Open Scope R_scope.

(** ** What is written *)
Section Spec.
Variable ds : nat -> lcset.
Variable scale : nat -> nat -> R.
Variable nq : nat.
Variable nd_rec : nat.
Variables low_ext upp_ext : R.
(** the posterior sample, row by row *)
Variable ps : list (list R).
(** P i row c t v e: with the parameters of the row, v is the prediction of curve c of set
    i for time t, and e its error; Q i row y: y are the trend coefficients *)
Variable P : nat -> list R -> nat -> R -> R -> R -> Prop.
Variable Q : nat -> list R -> arr -> Prop.
(** Every curve of set i is written at the same equally spaced times, at most nd_rec and
    at most three times as many as the continuum has points, from before the first to
    after the last point of the set.  A point is the mean of the predictions over the rows;
    its error is the spread of the predictions or, if larger, the largest single error.
    The trend coefficients are means with spreads.  All in the units of the data. *)
Definition written (i : nat) (out : list (list (R * (R * R))) * list (R * R)) : Prop :=
  let d := ds i in
  let n := Nat.min (3 * s_ncon d) nd_rec in
  exists first step, 0 < step /\
    (forall c m, (c < 1 + s_nl d)%nat -> (m < set_curves ds i c)%nat ->
       let x := times_of (s_tcon d) (s_tline d) c m in first < x + low_ext /\ x + upp_ext < first + INR (n - 1) * step) /\
    length (fst out) = (1 + s_nl d)%nat /\
    (forall c, (c < 1 + s_nl d)%nat -> exists curve, nth_error (fst out) c = Some curve /\ length curve = n /\
       forall k, (k < n)%nat -> exists ves : list (R * R),
         let t := first + INR k * step in
         let vs := map fst ves in
         Forall2 (fun row ve => P i row c t (fst ve) (snd ve)) ps ves /\
         nth_error curve k = Some (t, (PropRec.mean_of vs * scale i c,
            Rmax (sqrt (PropRec.variance_of vs)) (PropRec.largest (map snd ves)) * scale i c))) /\
    length (snd out) = ((1 + s_nl d) * nq)%nat /\
    exists ys : list arr, Forall2 (Q i) ps ys /\
      forall c k, (c < 1 + s_nl d)%nat -> (k < nq)%nat ->
        let vs := map (fun y : arr => y (c * nq + k)%nat) ys in
        nth_error (snd out) (c * nq + k)%nat = Some (PropRec.mean_of vs * scale i c, sqrt (PropRec.variance_of vs) * scale i c).
(** times of every curve in order (they may repeat), none empty; the extensions of the
    range leave some time *)
Definition set_in_order (i : nat) : Prop :=
  let x := times_of (s_tcon (ds i)) (s_tline (ds i)) in
  (forall c, (c < 1 + s_nl (ds i))%nat -> (1 <= set_curves ds i c)%nat /\ forall a b, (a < b < set_curves ds i c)%nat -> x c a <= x c b) /\
  exists c m c' m', (c < 1 + s_nl (ds i))%nat /\ (m < set_curves ds i c)%nat /\ (c' < 1 + s_nl (ds i))%nat /\ (m' < set_curves ds i c')%nat
    /\ x c m + low_ext < x c' m' + upp_ext.
End Spec.

(** ** Lists *)
Lemma nth_map_seq {A} (f : nat -> A) d n k : (k < n)%nat -> nth k (map f (seq 0 n)) d = f k.
Proof. intros K. rewrite (nth_indep _ d (f 0%nat)) by (rewrite map_length, seq_length; exact K). rewrite map_nth, seq_nth by exact K. reflexivity. Qed.
Lemma nth_error_map_seq {A} (f : nat -> A) n k : (k < n)%nat -> nth_error (map f (seq 0 n)) k = Some (f k).
Proof. intros K. rewrite nth_error_map, (nth_error_nth' _ 0%nat) by (rewrite seq_length; exact K). rewrite seq_nth by exact K. reflexivity. Qed.
Lemma in_order_map f n : (forall a b, (a < b < n)%nat -> f a <= f b) -> PropNorm.in_order (map f (seq 0 n)).
Proof.
  intros H a b x y AB X Y.
  assert (B : (b < n)%nat) by (rewrite <- (seq_length n 0), <- (map_length f); apply nth_error_Some; congruence).
  rewrite nth_error_map_seq in X, Y by lia. injection X as <-. injection Y as <-. apply H. lia.
Qed.
Lemma numbers_map l : numbers (map Some l) = Some l.
Proof. induction l as [|x l IH]; [reflexivity|]. cbn [map numbers]. rewrite IH. reflexivity. Qed.
Lemma map_rep {A B} (f : A -> B) x n : map f (repeat x n) = repeat (f x) n.
Proof. induction n as [|n IH]; [reflexivity|]. cbn [repeat map]. rewrite IH. reflexivity. Qed.
Lemma part_repeat {A} (g : list A) m c : (c < m)%nat -> firstn (length g) (skipn (c * length g) (concat (repeat g m))) = g.
Proof.
  revert m. induction c as [|c IH]; intros m C; (destruct m as [|m]; [lia|]); cbn [repeat concat].
  - cbn [Nat.mul skipn]. rewrite firstn_app, Nat.sub_diag, firstn_O, app_nil_r. apply firstn_all.
  - rewrite skipn_app. replace (S c * length g - length g)%nat with (c * length g)%nat by lia.
    rewrite (skipn_all2 g) by lia. apply IH. lia.
Qed.
Lemma nth_concat_repeat {A} (g : list A) m c k d : (c < m)%nat -> (k < length g)%nat -> nth (c * length g + k) (concat (repeat g m)) d = nth k g d.
Proof.
  revert m. induction c as [|c IH]; intros m C K; (destruct m as [|m]; [lia|]); cbn [repeat concat].
  - apply app_nth1. exact K.
  - rewrite app_nth2 by lia. replace (S c * length g + k - length g)%nat with (c * length g + k)%nat by lia. apply IH; lia.
Qed.
Lemma row_concat (ps : list (list R)) np m : List.Forall (fun r => length r = np) ps -> (m < length ps)%nat -> RecProofs.row np (concat ps) m = nth m ps [].
Proof.
  unfold RecProofs.row. intros F. revert m. induction F as [|r ps E F IH]; intros m M; cbn [length] in M; [lia|]. destruct m as [|m]; cbn [concat nth].
  - cbn [Nat.mul skipn]. rewrite <- E. rewrite firstn_app, Nat.sub_diag, firstn_O, app_nil_r. apply firstn_all.
  - rewrite skipn_app. replace (S m * np - length r)%nat with (m * np)%nat by lia. rewrite (skipn_all2 r) by lia. apply IH. lia.
Qed.
Lemma column_rows {V} (value : RecModel.recon R -> nat -> V) rec (ps : list (list R)) np k : List.Forall (fun r => length r = np) ps ->
  PropRec.column value rec (length ps) np (concat ps) k = map (fun r => value (rec r) k) ps.
Proof.
  intros F. unfold PropRec.column.
  transitivity (map (fun m => value (rec (nth m ps [])) k) (seq 0 (length ps))).
  - apply map_ext_in. intros m M. apply in_seq in M. rewrite row_concat by (auto; lia). reflexivity.
  - clear F. rewrite <- (map_map (fun m => nth m ps []) (fun r => value (rec r) k)). f_equal.
    induction ps as [|r ps IH]; [reflexivity|]. cbn [length seq map nth]. f_equal. rewrite <- seq_shift, map_map. exact IH.
Qed.
Lemma length_concat (ps : list (list R)) np : List.Forall (fun r => length r = np) ps -> length (concat ps) = (length ps * np)%nat.
Proof. induction 1 as [|r ps E F IH]; [reflexivity|]. cbn [concat length]. rewrite app_length, IH, E. lia. Qed.
Lemma sum_repeat n c m : (c <= m)%nat -> fold_right Nat.add 0%nat (firstn c (repeat n m)) = (c * n)%nat.
Proof. revert m. induction c as [|c IH]; intros m C; [reflexivity|]. destruct m as [|m]; [lia|]. cbn [repeat firstn fold_right]. rewrite IH by lia. lia. Qed.
Lemma total_const n c : total (fun _ => n) c = (c * n)%nat.
Proof. induction c as [|c IH]; [reflexivity|]. cbn [total]. rewrite IH. lia. Qed.
Lemma nth_error_combine {A B} (l : list A) (l' : list B) k x y : nth_error l k = Some x -> nth_error l' k = Some y -> nth_error (combine l l') k = Some (x, y).
Proof. revert l' k. induction l as [|a l IH]; intros [|b l'] [|k] X Y; try discriminate; cbn in *; [congruence|]. apply IH; assumption. Qed.
Lemma forall2_map {A B} (T : A -> B -> Prop) (f : A -> B) l : (forall x, In x l -> T x (f x)) -> Forall2 T l (map f l).
Proof. induction l as [|x l IH]; intros H; cbn [map]; constructor; [apply H; left; reflexivity|]. apply IH. intros y Y. apply H. right. exact Y. Qed.

Section Generic.
Variable nset : nat.
Variable ds : nat -> lcset.
Variable scale : nat -> nat -> R.
Variable ng : nat.
Variable uniform : nat.
Variable uniform_var : bool.
Variable nq : nat.
Variable nd_rec : nat.
Variables low_ext upp_ext : R.
Variable one : list R -> arr -> arr -> nat -> rec_out.
Variable ratio : bool.
Variable ps : list (list R).
Variable P : nat -> list R -> nat -> R -> R -> R -> Prop.
Variable Q : nat -> list R -> arr -> Prop.
Notation np := (ParamModel.num_params nset (nlset ds) ng uniform uniform_var).
Notation params := (row_params nset ds ng uniform uniform_var ratio).
Notation pts := (points ds nd_rec).
Hypothesis HS : List.Forall (fun r => length r = np) ps.
Hypothesis HN : (1 <= length ps)%nat.
Hypothesis HD : (2 <= nd_rec)%nat.
Hypothesis HP : forall i row tall, (i < nset)%nat -> In row ps ->
  let o := one row tall (params row) i in
  Q i row (rec_yq o) /\ forall c k, (c < 1 + s_nl (ds i))%nat -> (k < pts i)%nat ->
    P i row c (tall (c * pts i + k)%nat) (rec_f o (c * pts i + k)%nat) (rec_fe o (c * pts i + k)%nat).

Lemma times_ok i : set_in_order ds low_ext upp_ext i -> exists first step, 0 < step /\
  set_times ds nd_rec low_ext upp_ext i = Ok (Some (concat (repeat (map (fun k => first + INR k * step) (seq 0 (pts i))) (1 + s_nl (ds i))))) /\
  forall c m, (c < 1 + s_nl (ds i))%nat -> (m < set_curves ds i c)%nat ->
    let x := times_of (s_tcon (ds i)) (s_tline (ds i)) c m in first < x + low_ext /\ x + upp_ext < first + INR (pts i - 1) * step.
Proof.
  intros (O & c0 & m0 & c1 & m1 & C0 & M0 & C1 & M1 & XY). set (d := ds i) in *.
  assert (IN : forall c m, (c < 1 + s_nl d)%nat -> (m < set_curves ds i c)%nat ->
    exists l, In l (map (s_tcon d) (seq 0 (s_ncon d)) :: map (fun j => map (s_tline d j) (seq 0 (s_nline d j))) (seq 0 (s_nl d))) /\ In (times_of (s_tcon d) (s_tline d) c m) l).
  { intros [|j] m C M; unfold set_curves in M; cbn [narr_of times_of] in *; fold d in M.
    - eexists. split; [left; reflexivity|]. apply in_map, in_seq. lia.
    - eexists. split; [right; apply in_map_iff; exists j; split; [reflexivity|apply in_seq; lia]|]. apply in_map, in_seq. lia. }
  destruct (PropNorm.C59_grid (map (s_tcon d) (seq 0 (s_ncon d))) (map (fun j => map (s_tline d j) (seq 0 (s_nline d j))) (seq 0 (s_nl d))) nd_rec low_ext upp_ext)
    as (first & step & n & E & EN & SP & W); auto.
  - apply in_order_map. exact (proj2 (O 0%nat ltac:(lia))).
  - pose proof (proj1 (O 0%nat ltac:(lia))) as N1. unfold set_curves in N1. cbn [narr_of] in N1. fold d in N1. destruct (s_ncon d); [lia|discriminate].
  - intros l IL. apply in_map_iff in IL. destruct IL as (j & <- & J). apply in_seq in J. destruct (O (S j) ltac:(lia)) as [L1 L2].
    split; [apply in_order_map; exact L2|]. unfold set_curves in L1. cbn [narr_of] in L1. fold d in L1. destruct (s_nline d j); [lia|discriminate].
  - eexists _, _. split; [apply in_concat; exact (IN c0 m0 C0 M0)|]. split; [apply in_concat; exact (IN c1 m1 C1 M1)|exact XY].
  - rewrite map_length, seq_length in EN. assert (NP : n = pts i) by (unfold points, RecModel.rec_count; fold d; lia).
    rewrite NP in *. clear NP. exists first, step. split; [exact SP|]. split.
    + unfold set_times. fold d. rewrite E. cbn [bind]. rewrite map_length, seq_length.
      replace (concat (repeat (map (fun k => Some (first + INR k * step)) (seq 0 (pts i))) (1 + s_nl d)))
        with (map Some (concat (repeat (map (fun k => first + INR k * step) (seq 0 (pts i))) (1 + s_nl d)))).
      * rewrite numbers_map. reflexivity.
      * rewrite concat_map. f_equal. rewrite map_rep, map_map. reflexivity.
    + intros c m C M. cbn zeta. destruct (IN c m C M) as (l & I1 & I2). exact (W l _ I1 I2).
Qed.

Lemma set_out jk T order i : (i < nset)%nat -> set_in_order ds low_ext upp_ext i -> (1 <= T)%nat -> Permutation order (seq 0 T) ->
  exists out, output_set nset ds scale ng uniform uniform_var nq nd_rec low_ext upp_ext one ratio jk (length ps) T order (concat ps) i = Ok (Some out)
    /\ written ds scale nq nd_rec low_ext upp_ext ps P Q i out.
Proof.
  intros I IO HT HO. destruct (times_ok i IO) as (first & step & SP & ET & W). unfold output_set. rewrite ET. cbn [bind].
  set (g := map (fun k => first + INR k * step) (seq 0 (pts i))) in *.
  assert (LG : length g = pts i) by (unfold g; rewrite map_length, seq_length; reflexivity).
  set (tall := fun a => nth a (concat (repeat g (1 + s_nl (ds i)))) 0).
  set (rec := fun row => as_recon (one row tall (params row) i)).
  destruct (PropRec.C48_result jk (length ps) np T order (repeat (pts i) (1 + s_nl (ds i))) nq (map (scale i) (seq 0 (1 + s_nl (ds i)))) rec (concat ps) HT HN (length_concat ps np HS) HO)
    as (cs & tr & E & LC & LT & R).
  { rewrite repeat_length, map_length, seq_length. reflexivity. }
  fold tall. fold rec. rewrite E. cbn [bind]. eexists. split; [reflexivity|]. rewrite repeat_length in LC, LT.
  assert (TA : forall c k, (c < 1 + s_nl (ds i))%nat -> (k < pts i)%nat -> tall (c * pts i + k)%nat = first + INR k * step).
  { intros c k C K. unfold tall. rewrite <- LG at 1. rewrite nth_concat_repeat by (rewrite ?LG; assumption). unfold g. rewrite nth_map_seq by exact K. reflexivity. }
  assert (NN : Nat.min (3 * s_ncon (ds i)) nd_rec = pts i) by (unfold points, RecModel.rec_count; lia).
  unfold written. rewrite NN. exists first, step. cbn [fst snd]. split; [exact SP|]. split; [exact W|]. split; [rewrite map_length, seq_length; reflexivity|].
  assert (RC : forall c, (c < 1 + s_nl (ds i))%nat -> nth_error (repeat (pts i) (1 + s_nl (ds i))) c = Some (pts i)).
  { intros c C. rewrite (nth_error_nth' _ (pts i)) by (rewrite repeat_length; exact C). rewrite nth_repeat. reflexivity. }
  split; [|split; [exact LT|]].
  - intros c C. destruct (R c (pts i) (scale i c) (RC c C) (nth_error_map_seq _ _ _ C)) as ((cur & C1 & C2) & R1 & _).
    rewrite (nth_error_map_seq (fun c => curve_rows _ (pts i) c (nth c cs []))) by exact C. eexists. split; [reflexivity|].
    rewrite (nth_error_nth _ _ [] C1).
    assert (PR : firstn (pts i) (skipn (c * pts i) (concat (repeat g (1 + s_nl (ds i))))) = g) by (rewrite <- LG; apply part_repeat, C).
    unfold curve_rows. rewrite PR.
    split; [rewrite combine_length, LG, C2; lia|]. intros k K.
    destruct (R1 k K) as (cur' & C1' & V). rewrite C1 in C1'. injection C1' as <-. cbn zeta in V.
    rewrite sum_repeat in V by lia. rewrite !(column_rows _ rec ps np _ HS) in V.
    exists (map (fun row => (rec_f (one row tall (params row) i) (c * pts i + k)%nat, rec_fe (one row tall (params row) i) (c * pts i + k)%nat)) ps).
    cbn zeta. rewrite !map_map. cbn [fst snd]. split.
    + apply forall2_map. intros row RI. cbn [fst snd]. destruct (HP i row tall I RI) as [_ H]. specialize (H c k C K). rewrite TA in H by assumption. exact H.
    + apply nth_error_combine; [unfold g; rewrite nth_error_map_seq by exact K; reflexivity|exact V].
  - exists (map (fun row => rec_yq (one row tall (params row) i)) ps). split.
    + apply forall2_map. intros row RI. exact (proj1 (HP i row tall I RI)).
    + intros c k C K. cbn zeta. rewrite !map_map. destruct (R c (pts i) (scale i c) (RC c C) (nth_error_map_seq _ _ _ C)) as (_ & _ & R2).
      specialize (R2 k K). cbn zeta in R2. rewrite (column_rows _ rec ps np _ HS) in R2. exact R2.
Qed.
Lemma sequence_all {A} (f : nat -> outcome A) (T : nat -> A -> Prop) n : (forall i, (i < n)%nat -> exists x, f i = Ok x /\ T i x) ->
  exists xs, RecModel.sequence (map f (seq 0 n)) = Ok xs /\ length xs = n /\ forall i, (i < n)%nat -> exists x, nth_error xs i = Some x /\ T i x.
Proof.
  assert (G : forall a, (forall i, (i < n)%nat -> exists x, f (a + i)%nat = Ok x /\ T (a + i)%nat x) ->
    exists xs, RecModel.sequence (map f (seq a n)) = Ok xs /\ length xs = n /\ forall i, (i < n)%nat -> exists x, nth_error xs i = Some x /\ T (a + i)%nat x).
  { induction n as [|n IH]; intros a H.
    - exists []. split; [reflexivity|]. split; [reflexivity|]. intros; lia.
    - destruct (H 0%nat ltac:(lia)) as (x & E & TX). rewrite Nat.add_0_r in E, TX.
      destruct (IH (S a)) as (xs & E2 & L & TS).
      { intros i I. destruct (H (S i) ltac:(lia)) as (y & Y1 & Y2). exists y. replace (S a + i)%nat with (a + S i)%nat by lia. auto. }
      exists (x :: xs). cbn [seq map RecModel.sequence]. rewrite E. cbn [bind]. rewrite E2. cbn [bind]. split; [reflexivity|]. split; [cbn [length]; lia|].
      intros [|i] I; cbn [nth_error].
      + exists x. rewrite Nat.add_0_r. auto.
      + destruct (TS i ltac:(lia)) as (y & Y1 & Y2). exists y. replace (a + S i)%nat with (S a + i)%nat by lia. auto. }
  intros H. exact (G 0%nat H).
Qed.
Lemma all_out jk T order : (1 <= T)%nat -> (forall i, (i < nset)%nat -> set_in_order ds low_ext upp_ext i /\ Permutation (order i) (seq 0 T)) ->
  exists outs, output_all nset ds scale ng uniform uniform_var nq nd_rec low_ext upp_ext one ratio jk (length ps) T order (concat ps) = Ok outs
    /\ length outs = nset /\ forall i, (i < nset)%nat -> exists out, nth_error outs i = Some (Some out) /\ written ds scale nq nd_rec low_ext upp_ext ps P Q i out.
Proof.
  intros HT H. unfold output_all.
  destruct (sequence_all (fun i => output_set nset ds scale ng uniform uniform_var nq nd_rec low_ext upp_ext one ratio jk (length ps) T (order i) (concat ps) i)
    (fun i o => exists out, o = Some out /\ written ds scale nq nd_rec low_ext upp_ext ps P Q i out) nset) as (xs & E & L & X).
  - intros i I. destruct (H i I) as [IO HO]. destruct (set_out jk T (order i) i I IO HT HO) as (out & E & Wr). exists (Some out). split; [exact E|]. exists out. auto.
  - exists xs. split; [exact E|]. split; [exact L|]. intros i I. destruct (X i I) as (x & X1 & out & -> & Wr). exists out. auto.
Qed.
End Generic.

(** ** One set, one row *)
Section Rows.
Context {IP : Type}.
Variable dsytrf : nat -> (nat -> nat -> R) -> (nat -> nat -> R) * IP.
Variable dsytri : nat -> (nat -> nat -> R) -> IP -> nat -> nat -> R.
Variables dtrtri dlauum : nat -> arr -> arr.
Variables log_erfc erfc : R -> R.
Variable type_tf : nat.
Variable flag : bool.
Variable ty : nat -> nat.
Variable nset : nat.
Variable ds : nat -> lcset.
Variable scale : nat -> nat -> R.
Variable ng : nat.
Variable uniform : nat.
Variable uniform_var : bool.
Variable nq : nat.
Variable nd_rec : nat.
Variables low_ext upp_ext : R.
Variable junk : nat -> nat -> nat.
Variable fd : list R -> nat -> found.
Variable rd : list R -> nat -> rec_found.
Notation li := (line_index nset ds ng uniform uniform_var junk).
Notation ci := (con_index uniform_var).
Notation ok := (set_ok nset ds ng uniform uniform_var nq).
Notation described := (set_described nset ds ng uniform uniform_var nq).
Notation pts := (points ds nd_rec).
Notation np := (ParamModel.num_params nset (nlset ds) ng uniform uniform_var).

(** With the parameters pm: v is the best linear unbiased prediction of curve c of set i
    for time t, e its standard error *)
Definition prediction (psi : nat -> nat -> R -> R) (pm : arr) (i : nat) (SS L : nat -> nat -> R) (c : nat) (t v e : R) : Prop :=
  exists u V, target_covariance (PropEnd.curve_of (psi i) c) (psi i) (set_taud uniform_var pm i) (set_sigma uniform_var pm i) (set_sizes ds i) (set_time ds i) t u
    /\ target_variance (PropEnd.curve_of (psi i) c) (set_taud uniform_var pm i) (set_sigma uniform_var pm i) t V
    /\ best_prediction (set_points ds i) (nq * (1 + s_nl (ds i))) SS L u V (fun w => trend_at nq w c t) (s_fall (ds i)) v e.

Section One.
Variable pm : arr.
Variable i : nat.
Hypothesis I : (i < nset)%nat.
Variable psi : nat -> nat -> R -> R.
Variable p' : arr.
Hypothesis SE : same_errors nset ds ng uniform uniform_var pm p' i.
Variable K : kernels.
Hypothesis EK : EndProofs.exact_kernels (set_taud uniform_var pm i) (s_nl (ds i)) (psi i) K.
Hypothesis SH : forall j, (j < s_nl (ds i))%nat -> of_shapes (psi i j).
Hypothesis OK : ok pm i.
Variable f : found.
Variable r : rec_found.
Variable tall : arr.
Notation d := (ds i).
Lemma row_rec SS Si L PC : dsytr_spec dsytrf dsytri -> dtrtri_spec dtrtri -> dlauum_spec dlauum -> separate ds (fun _ => f) i -> described pm psi i SS Si L ->
  EndProofs.filled (s_ncon d) (s_tcon d) (s_fe d) (s_em d) (s_nl d) (s_nline d) (s_tline d) (s_fel d) (s_eml d) p' (ci i) (li i) (psi i) PC ->
  let o := rec_with dsytrf dsytri dtrtri dlauum (s_ncon d) (s_tcon d) (s_fe d) (s_em d) (s_nl d) (s_nline d) (s_tline d) (s_fall d) nq K p' (ci i)
    (f_mem f) (f_A f) (f_wk f) (f_L f) (f_W f) (f_D f) (f_phi f) (fun _ => pts i) tall (r_US r) (r_AS r) (r_L r) (r_f r) (r_PE r) PC in
  least_squares (set_points ds i) (nq * (1 + s_nl d)) Si L (s_fall d) (rec_yq o) /\
  forall c k, (c < 1 + s_nl d)%nat -> (k < pts i)%nat ->
    prediction psi pm i SS L c (tall (c * pts i + k)%nat) (rec_f o (c * pts i + k)%nat) (rec_fe o (c * pts i + k)%nat).
Proof.
  intros LS LT LL AP (D & IV & TD) F. pose proof OK as (NQ & NL & NC & ORD & _ & ET).
  pose proof (EndProofs.rec_generic (s_ncon d) (s_tcon d) (s_fe d) (s_em d) (s_nl d) (s_nline d) (s_tline d) (s_fel d) (s_eml d) p' (ci i) (li i) (psi i) K
    (EK' nset ds ng uniform uniform_var pm i I psi p' SE K EK) SH (err_pos nset ds ng uniform uniform_var nq junk pm i I p' SE OK) dsytrf dsytri dtrtri dlauum (s_fall d) nq
    (f_mem f) (f_A f) (f_wk f) (f_L f) (f_W f) (f_D f) (f_phi f) NQ NL NC ORD ET AP (fun _ => pts i) tall (r_US r) (r_AS r) (r_L r) (r_f r) (r_PE r) PC SS Si L LS LT LL F
    (cov_to nset ds ng uniform uniform_var junk pm i I psi p' SE SS D) IV TD) as [H1 H2].
  split; [exact H1|]. intros c k C KK. destruct (H2 c k C KK) as (u & V & U1 & V1 & B).
  rewrite (sig_eq nset ds ng uniform uniform_var pm i I p' SE), (taud_eq nset ds ng uniform uniform_var pm i I p' SE) in U1, V1. rewrite total_const in U1, V1, B.
  exists u, V. split; [exact U1|]. split; [exact V1|exact B].
Qed.
End One.

(** ** The program *)
Variable ps : list (list R).
(** the covariance matrix of the data of a set for a row of the sample, its inverse, and
    the trends *)
Variables SS Si L : nat -> list R -> nat -> nat -> R.
Notation par := row_values.
Definition best_row (psi : list R -> nat -> nat -> R -> R) (i : nat) (row : list R) (c : nat) (t v e : R) : Prop :=
  prediction (psi row) (par row) i (SS i row) (L i row) c t v e.
Definition trend_row (i : nat) (row : list R) (y : arr) : Prop :=
  least_squares (set_points ds i) (nq * (1 + s_nl (ds i))) (Si i row) (L i row) (s_fall (ds i)) y.
(** a sample with at least one row, rows as long as the parameter vector; options within
    their ranges *)
Definition sample_ok : Prop := List.Forall (fun r => length r = np) ps /\ (1 <= length ps)%nat /\ (2 <= nd_rec)%nat.
Definition row_ok (psi : list R -> nat -> nat -> R -> R) (i : nat) (row : list R) : Prop :=
  ok (par row) i /\ separate ds (fd row) i /\ described (par row) (psi row) i (SS i row) (Si i row) (L i row).
Definition all_written (psi : list R -> nat -> nat -> R -> R) (outs : list (option (list (list (R * (R * R))) * list (R * R)))) : Prop :=
  length outs = nset /\ forall i, (i < nset)%nat -> exists out, nth_error outs i = Some (Some out) /\
    written ds scale nq nd_rec low_ext upp_ext ps (best_row psi) trend_row i out.
Hypothesis LS : dsytr_spec dsytrf dsytri.
Hypothesis LT : dtrtri_spec dtrtri.
Hypothesis LL : dlauum_spec dlauum.

Notation psi_g := (fun row i j => response (PropCov.shape_of type_tf) ng (component nset ds ng uniform uniform_var (par row) (decode flag) i j)).
Theorem C82_general jk T order : sample_ok -> (1 <= T)%nat ->
  (forall i, (i < nset)%nat -> set_in_order ds low_ext upp_ext i /\ Permutation (order i) (seq 0 T) /\ forall row, In row ps ->
     row_ok psi_g i row /\ set_good ds ng uniform_var (par row) log_erfc type_tf (component nset ds ng uniform uniform_var (par row) (decode flag)) i) ->
  exists outs, output_reconstruction_parallel dsytrf dsytri dtrtri dlauum log_erfc type_tf flag nset ds scale ng uniform uniform_var nq nd_rec low_ext upp_ext junk fd rd false
      jk (length ps) T order (concat ps) = Ok outs /\ all_written psi_g outs.
Proof.
  intros (HS & HN & HD) HT H. apply all_out; auto; [|intros i I; split; apply (H i I)].
  intros i row tall I RI. cbn zeta. destruct (H i I) as (_ & _ & HR). destruct (HR row RI) as ((OK & AP & D) & G). unfold row_params.
  destruct (general_K log_erfc type_tf nset ds ng uniform uniform_var junk (par row) flag (component nset ds ng uniform uniform_var (par row) (decode flag)) (par row) i I
    (same_self nset ds ng uniform uniform_var (par row) i) (fun _ _ _ _ => eq_refl) G) as [EK SH].
  destruct (row_rec (par row) i I (psi_g row) (par row) (same_self nset ds ng uniform uniform_var (par row) i) _ EK SH OK (fd row i) (rd row i) tall _ _ _ _ LS LT LL AP D
    (EndProofs.scalar_filled (s_ncon (ds i)) (s_tcon (ds i)) (s_fe (ds i)) (s_em (ds i)) (s_nl (ds i)) (s_nline (ds i)) (s_tline (ds i)) (s_fel (ds i)) (s_eml (ds i)) (par row) (ci i) (li i) (psi_g row i) _
      (EK' nset ds ng uniform uniform_var (par row) i I (psi_g row) (par row) (same_self nset ds ng uniform uniform_var (par row) i) _ EK) (f_PS (fd row i)) (f_mem (fd row i)) (f_A (fd row i)))) as [R1 R2].
  split; [exact R1|exact R2].
Qed.

Notation psi_m := (fun row i j => mixed_response ng ty (component nset ds ng uniform uniform_var (par row) exp i j)).
Theorem C82_mixed jk T order : sample_ok -> (1 <= T)%nat -> log_erfc_correct log_erfc -> erfc_correct erfc -> digits ng ty ->
  (forall i, (i < nset)%nat -> set_in_order ds low_ext upp_ext i /\ Permutation (order i) (seq 0 T) /\ forall row, In row ps ->
     row_ok psi_m i row /\ forall j, (j < s_nl (ds i))%nat -> clear_scales' (set_taud uniform_var (par row) i) ng ty (component nset ds ng uniform uniform_var (par row) exp i j)) ->
  exists outs, output_reconstruction_parallel_mmap dsytrf dsytri dtrtri dlauum log_erfc erfc ty nset ds scale ng uniform uniform_var nq nd_rec low_ext upp_ext junk fd rd
      jk (length ps) T order (concat ps) = Ok outs /\ all_written psi_m outs.
Proof.
  intros (HS & HN & HD) HT HLE HE DG H. apply all_out; auto; [|intros i I; split; apply (H i I)].
  intros i row tall I RI. cbn zeta. destruct (H i I) as (_ & _ & HR). destruct (HR row RI) as ((OK & AP & D) & G). unfold row_params.
  destruct (mixed_K log_erfc erfc ty nset ds ng uniform uniform_var junk (par row) i I HLE HE DG G (f_blc (fd row i)) (f_bll (fd row i))) as [EK SH].
  destruct (row_rec (par row) i I (psi_m row) (par row) (same_self nset ds ng uniform uniform_var (par row) i) _ EK SH OK (fd row i) (rd row i) tall _ _ _ _ LS LT LL AP D
    (EndProofs.array_filled (s_ncon (ds i)) (s_tcon (ds i)) (s_fe (ds i)) (s_em (ds i)) (s_nl (ds i)) (s_nline (ds i)) (s_tline (ds i)) (s_fel (ds i)) (s_eml (ds i)) (par row) (ci i) (li i) (psi_m row i) _
      (EK' nset ds ng uniform uniform_var (par row) i I (psi_m row) (par row) (same_self nset ds ng uniform uniform_var (par row) i) _ EK) (f_lc (fd row i)) (f_ll (fd row i)) (f_PS (fd row i)) (f_mem (fd row i)) (f_A (fd row i)))) as [R1 R2].
  split; [exact R1|exact R2].
Qed.

Notation psi_r := (fun row i j => response (PropCov.shape_of type_tf) ng (ratio_component nset ds ng uniform uniform_var (par row) i j)).
Theorem C82_ratio jk T order : sample_ok -> (1 <= T)%nat -> (1 <= ng)%nat -> flag = false ->
  (forall i, (i < nset)%nat -> set_in_order ds low_ext upp_ext i /\ Permutation (order i) (seq 0 T) /\ forall row, In row ps ->
     row_ok psi_r i row /\ set_good ds ng uniform_var (par row) log_erfc type_tf (ratio_component nset ds ng uniform uniform_var (par row)) i) ->
  exists outs, output_reconstruction_parallel dsytrf dsytri dtrtri dlauum log_erfc type_tf flag nset ds scale ng uniform uniform_var nq nd_rec low_ext upp_ext junk fd rd true
      jk (length ps) T order (concat ps) = Ok outs /\ all_written psi_r outs.
Proof.
  intros (HS & HN & HD) HT NG FL H. apply all_out; auto; [|intros i I; split; apply (H i I)].
  intros i row tall I RI. cbn zeta. destruct (H i I) as (_ & _ & HR). destruct (HR row RI) as ((OK & AP & D) & G). unfold row_params.
  destruct (PropSmall.C53_inplace Rplus ng (ParamModel.num_params_var nset uniform_var) (ParamSpec.nlines nset (nlset ds) uniform) 0 (par row) NG) as (M' & E & TR & _).
  replace (ParamModel.num_params_line nset (nlset ds) ng uniform) with (ParamSpec.nlines nset (nlset ds) uniform * (1 + 3 * ng))%nat by (rewrite ParamProofs.npl_lines; unfold ParamModel.per_line; lia).
  rewrite E.
  assert (NP : (ParamModel.num_params_var nset uniform_var + ParamSpec.nlines nset (nlset ds) uniform * (1 + 3 * ng))%nat = np) by (unfold ParamModel.num_params; rewrite ParamProofs.npl_lines; unfold ParamModel.per_line; lia).
  rewrite NP in TR. destruct (ratio_pt nset ds ng uniform uniform_var (par row) M' TR i I) as [SE EQ].
  destruct (general_K log_erfc type_tf nset ds ng uniform uniform_var junk (par row) false (ratio_component nset ds ng uniform uniform_var (par row)) M' i I SE EQ G) as [EK SH].
  destruct (row_rec (par row) i I (psi_r row) M' SE _ EK SH OK (fd row i) (rd row i) tall _ _ _ _ LS LT LL AP D
    (EndProofs.scalar_filled (s_ncon (ds i)) (s_tcon (ds i)) (s_fe (ds i)) (s_em (ds i)) (s_nl (ds i)) (s_nline (ds i)) (s_tline (ds i)) (s_fel (ds i)) (s_eml (ds i)) M' (ci i) (li i) (psi_r row i) _
      (EK' nset ds ng uniform uniform_var (par row) i I (psi_r row) M' SE _ EK) (f_PS (fd row i)) (f_mem (fd row i)) (f_A (fd row i)))) as [R1 R2].
  rewrite FL. split; [exact R1|exact R2].
Qed.
End Rows.
Print Assumptions C82_general.
Print Assumptions C82_mixed.
Print Assumptions C82_ratio.

(** ** Cases meeting the hypotheses *)
(** Two sets with four continuum points, the lines with three points each; set 0 has two
    lines, set 1 three; linear trends, two top-hats per line.  A sample of two rows of any
    41 numbers, two tasks reduced in either order. *)
Definition out_sets (fall : nat -> arr) (i : nat) : lcset :=
  LcSet 4 INR PropEnd.case_e 1 (2 + i) (fun _ => 3%nat) (fun j k => INR (j + k)) (fun _ => PropEnd.case_e) (fun _ => 1) (fall i).
Lemma out_ok fall u uv pm i : (i < 2)%nat -> set_ok 2 (out_sets fall) 2 u uv 2 pm i.
Proof.
  intros I. split; [lia|]. split; [cbn; lia|]. split; [cbn; lia|]. split; [|split].
  - cbn [s_ncon s_tcon out_sets]. intros k KK. apply le_INR. lia.
  - intros [|c] m C M; cbn [set_error2 out_sets s_fe s_em s_fel s_eml]; unfold PropEnd.case_e; apply err_case.
  - intros [|c] C; exists (fun i => i); unfold set_curves; cbn [narr_of times_of out_sets s_ncon s_tcon s_nline s_tline]; (split; [intros; lia|]); intros a b A B E; apply INR_eq in E; lia.
Qed.
Lemma out_order fall i : (i < 2)%nat -> set_in_order (out_sets fall) (-10) 10 i.
Proof.
  intros I. split.
  - intros [|j] C; unfold set_curves; cbn [narr_of times_of out_sets s_ncon s_tcon s_nline s_tline]; (split; [lia|]); intros a b AB; apply le_INR; lia.
  - exists 0%nat, 0%nat, 0%nat, 0%nat. unfold set_curves. cbn [narr_of times_of out_sets s_ncon s_tcon]. repeat (split; [lia|]). lra.
Qed.
Example C82_case fall scale mem r1 r2 : length r1 = 41%nat -> length r2 = 41%nat -> exists SS Si L outs,
  output_reconstruction_parallel ref_dsytrf ref_dsytri ref_dtrtri ref_dlauum (fun _ => 0) 1 false 2 (out_sets fall) scale 2 0 false 2 200 (-10) 10 (fun _ _ => 0%nat)
    (fun _ => case_found mem) (fun _ _ => RecFound mem mem mem mem mem) false 7 2 2 (fun i => if Nat.eqb i 0 then [0; 1]%nat else [1; 0]%nat) (r1 ++ r2) = Ok outs
  /\ all_written 2 (out_sets fall) scale false 2 200 (-10) 10 [r1; r2] SS Si L
       (fun row i j => response tophat 2 (component 2 (out_sets fall) 2 0 false (row_values row) exp i j)) outs.
Proof.
  intros L1 L2.
  assert (H : forall x : nat * list R, exists y : (nat -> nat -> R) * (nat -> nat -> R) * (nat -> nat -> R), (fst x < 2)%nat ->
    set_described 2 (out_sets fall) 2 0 false 2 (row_values (snd x)) (fun i j => response tophat 2 (component 2 (out_sets fall) 2 0 false (row_values (snd x)) exp i j)) (fst x) (fst (fst y)) (snd (fst y)) (snd y)).
  { intros [i row]. cbn [fst snd]. destruct (Nat.lt_ge_cases i 2) as [I|I]; [|exists (fun _ _ => 0, fun _ _ => 0, fun _ _ => 0); intros; lia].
    destruct (C74_described (fun _ => 0) 1 false 2 (out_sets fall) 2 0 false 2 (fun _ _ => 0%nat) (row_values row) i I (out_ok fall 0 false _ i I) Logic.I) as (a & b & c & D).
    exists (a, b, c). intros _. exact D. }
  apply ClassicalChoice.choice in H. destruct H as [g D].
  exists (fun i row => fst (fst (g (i, row)))), (fun i row => snd (fst (g (i, row)))), (fun i row => snd (g (i, row))).
  destruct (C82_general ref_dsytrf ref_dsytri ref_dtrtri ref_dlauum (fun _ => 0) 1 false 2 (out_sets fall) scale 2 0 false 2 200 (-10) 10 (fun _ _ => 0%nat)
    (fun _ => case_found mem) (fun _ _ => RecFound mem mem mem mem mem) [r1; r2]
    (fun i row => fst (fst (g (i, row)))) (fun i row => snd (fst (g (i, row)))) (fun i row => snd (g (i, row))) C29_contract_met dtrtri_exists dlauum_exists 7 2
    (fun i => if Nat.eqb i 0 then [0; 1]%nat else [1; 0]%nat)) as (outs & E & W).
  - split; [|split; [cbn; lia|lia]]. constructor; [rewrite L1; reflexivity|]. constructor; [rewrite L2; reflexivity|constructor].
  - lia.
  - intros i I. split; [apply out_order, I|]. split.
    + destruct (Nat.eqb i 0); cbn [seq]; [apply Permutation_refl|apply perm_swap].
    + intros row _. split; [|exact Logic.I]. split; [apply out_ok, I|]. split; [|exact (D (i, row) I)].
      left. assert (i = 0 \/ i = 1)%nat as [-> | ->] by lia; cbn; lia.
  - exists outs. split; [|exact W]. cbn [concat length] in E. rewrite app_nil_r in E. exact E.
Qed.
