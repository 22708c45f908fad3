(** C110: what the two functions write that do the reconstruction with one task alone,
    output_reconstruction and output_reconstruction2.  Real arithmetic, no rounding, except
    C110_one_task. *)
From Coq Require Import Reals List Arith Lia Lra Permutation ClassicalChoice.
From Coquelicot Require Import Coquelicot.
From Verif Require Import CPrelude SemisepModel SemisepProofs SemisepProofs2 MatBridge MatBridge2 SemisepProofs3 PartProofs PartProofs2 KernelCalc KernelSpec KernelModel KernelGauss2 PartModel
  CovModel LikeModel PredModel PropPart PropSemisep GlsAlgebra LikeProofs PropLike PredProofs PropPred.
From Verif Require Import PropCov MixSpec PropKernel MixModel PropMix PsdCore PsdKernel PropPsd EndModel VmapModel SetsModel PropSets OutModel PropOut SeqModel.
From Verif Require EndProofs PropEnd PropVmap ParamModel ParamSpec ParamProofs ParamProofs2 SmallModel PropSmall PropParam RecModel RecProofs PropRec PropNorm.
Import ListNotations.
Open Scope R_scope.

(** ** What is written *)
Section Spec.
Variable ds : nat -> lcset.
Variable scale : nat -> nat -> R.
Variable nq : nat.
Variable nd_rec : nat.
(** the posterior sample, row by row *)
Variable ps : list (list R).
(** as in PropOut: P i row c t v e, with the parameters of the row v is the prediction of
    curve c of set i for time t, and e its error; Q i row y: y are the trend coefficients *)
Variable P : nat -> list R -> nat -> R -> R -> R -> Prop.
Variable Q : nat -> list R -> arr -> Prop.
(** pall_each.txt: for every row of the sample and every emission line the prediction and its
    error for every time written in pall.txt, in the units of the data *)
Definition each_written (i : nat) (out : list (list (R * (R * R))) * list (R * R)) (each : list (list (list (R * (R * R))))) : Prop :=
  length each = length ps /\
  forall m row, nth_error ps m = Some row -> exists ls, nth_error each m = Some ls /\ length ls = s_nl (ds i) /\
    forall j, (j < s_nl (ds i))%nat -> exists pts curve, nth_error ls j = Some pts /\ nth_error (fst out) (1 + j) = Some curve /\ length pts = length curve /\
      forall k, (k < length curve)%nat -> exists t v e q, nth_error curve k = Some (t, q) /\ P i row (1 + j) t v e /\
        nth_error pts k = Some (t, (v * scale i (1 + j), e * scale i (1 + j))).
(** Every curve at its own times: equally spaced, at most nd_rec and at most three times as
    many as the curve has points, from a twentieth of the length of the curve before its
    first to a twentieth after its last point.  Values, errors and trends as in
    [PropOut.written]. *)
Definition own_written (i : nat) (out : list (list (R * (R * R))) * list (R * R)) : Prop :=
  let d := ds i in
  length (fst out) = (1 + s_nl d)%nat /\
  (forall c, (c < 1 + s_nl d)%nat ->
     let size := set_curves ds i c in
     let n := Nat.min (3 * size) nd_rec in
     let first := times_of (s_tcon d) (s_tline d) c 0%nat in
     let last := times_of (s_tcon d) (s_tline d) c (size - 1)%nat in
     exists curve start step, nth_error (fst out) c = Some curve /\ length curve = n /\
       start = first - (last - first) / 20 /\ start + INR (n - 1) * step = last + (last - first) / 20 /\
       forall k, (k < n)%nat -> exists ves : list (R * R),
         let t := start + INR k * step in
         let vs := map fst ves in
         Forall2 (fun row ve => P i row c t (fst ve) (snd ve)) ps ves /\
         nth_error curve k = Some (t, (PropRec.mean_of vs * scale i c,
            Rmax (sqrt (PropRec.variance_of vs)) (PropRec.largest (map snd ves)) * scale i c))) /\
  length (snd out) = ((1 + s_nl d) * nq)%nat /\
  exists ys : list arr, Forall2 (Q i) ps ys /\
    forall c k, (c < 1 + s_nl d)%nat -> (k < nq)%nat ->
      let vs := map (fun y : arr => y (c * nq + k)%nat) ys in
      nth_error (snd out) (c * nq + k)%nat = Some (PropRec.mean_of vs * scale i c, sqrt (PropRec.variance_of vs) * scale i c).
End Spec.

(** ** One task *)
Lemma read_row_ok {F} np m (all : list F) n : (m < n)%nat -> length all = (n * np)%nat -> read_row np m all = Ok (RecProofs.row np all m).
Proof.
  intros M L. unfold read_row, RecProofs.row. destruct (Nat.leb_spec (m * np + np) (length all)) as [H|H]; [reflexivity|].
  exfalso. rewrite L in H. assert ((m + 1) * np <= n * np)%nat by (apply Nat.mul_le_mono_r; lia). nia.
Qed.
Lemma seq_sums_ok {F} (ops : RecModel.arith F) num_ps np nall nq rec all : length all = (num_ps * np)%nat ->
  seq_sums ops num_ps np nall nq rec all =
  Ok (fold_left (fun s m => RecModel.add_row ops nall nq (rec (RecProofs.row np all m)) s) (seq 0 num_ps) (RecModel.sums0 ops)).
Proof.
  intros L. unfold seq_sums.
  assert (B : forall m, In m (seq 0 num_ps) -> (m < num_ps)%nat) by (intros m M; apply in_seq in M; lia).
  revert B. generalize (seq 0 num_ps) as l. generalize (RecModel.sums0 ops) as s. intros s l. revert s.
  induction l as [|m l IH]; intros s B; [reflexivity|]. cbn [fold_left bind].
  rewrite (read_row_ok np m all num_ps) by (auto; apply B; left; reflexivity). cbn [bind]. apply IH. intros m' M'. apply B. right. exact M'.
Qed.
Lemma sample_one {F} (junk : F) num_ps np all : length all = (num_ps * np)%nat -> RecModel.task_sample junk num_ps np 1 0 all = Ok all.
Proof.
  intros L. unfold RecModel.task_sample, RecModel.scatter_part, RecModel.ps_task, RecModel.ps_average. cbn [Nat.eqb]. rewrite Nat.div_1_r.
  replace (num_ps - num_ps * (1 - 1) - num_ps)%nat with 0%nat by lia. replace (num_ps - num_ps * (1 - 1))%nat with num_ps by lia.
  unfold RecModel.slice. cbn [Nat.mul Nat.add]. rewrite <- L, Nat.leb_refl. cbn [skipn]. rewrite firstn_all. cbn [bind].
  unfold RecModel.blit. cbn [Nat.add firstn app]. rewrite repeat_length, Nat.leb_refl. cbn [bind]. rewrite skipn_all2 by (rewrite repeat_length; lia). rewrite app_nil_r.
  cbn [Nat.leb firstn bind]. replace (length all + 0)%nat with (length all) by lia. cbn [length]. rewrite Nat.add_0_r, Nat.leb_refl. rewrite firstn_all, skipn_all. cbn [app]. rewrite app_nil_r. reflexivity.
Qed.
(** With one task output_reconstruction_parallel does the same operations on the same
    numbers, in the same order: no difference, whatever the arithmetic. *)
Theorem C110_one_task {F} (ops : RecModel.arith F) junk num_ps np nall nq scale rec all : length all = (num_ps * np)%nat ->
  seq_reconstruction ops num_ps np nall nq scale rec all = RecModel.reconstruction ops junk num_ps np 1 [0%nat] nall nq scale rec all.
Proof.
  intros L. unfold seq_reconstruction, RecModel.reconstruction, RecModel.reduced. rewrite seq_sums_ok by exact L.
  cbn [map RecModel.sequence]. rewrite sample_one by exact L. cbn [bind].
  assert (E1 : RecModel.ps_task num_ps 1 0 = num_ps) by (unfold RecModel.ps_task, RecModel.ps_average; cbn [Nat.eqb]; lia).
  rewrite RecProofs.task_sums_ok by (rewrite E1; exact L). rewrite E1. cbn [bind map RecModel.reduce fold_left].
  destruct (fold_left _ (seq 0 num_ps) (RecModel.sums0 ops)). reflexivity.
Qed.
Print Assumptions C110_one_task.
(** in doubles: three rows of a tenth; the spread written is NaN, as in C48 *)
Example C110_one_task_case :
  seq_reconstruction RecModel.Darith 3 1 [1%nat] 1 [RecModel.d_ofnat 1] PropRec.d_rec [PropRec.d_tenth; PropRec.d_tenth; PropRec.d_tenth] =
  RecModel.reconstruction RecModel.Darith (RecModel.d_ofnat 5) 3 1 1 [0%nat] [1%nat] 1 [RecModel.d_ofnat 1] PropRec.d_rec [PropRec.d_tenth; PropRec.d_tenth; PropRec.d_tenth].
Proof. apply C110_one_task. reflexivity. Qed.

(** ** Any number of tasks *)
Lemma offset_const n c : offset (fun _ => n) c = (c * n)%nat.
Proof. induction c as [|c IH]; [reflexivity|]. cbn [offset]. rewrite IH. lia. Qed.
Lemma offset_total f c : offset f c = total f c.
Proof. induction c as [|c IH]; [reflexivity|]. cbn [offset total]. rewrite IH. reflexivity. Qed.
Lemma map_const {A} (x : A) n a : map (fun _ : nat => x) (seq a n) = repeat x n.
Proof. revert a. induction n as [|n IH]; intros a; [reflexivity|]. cbn [seq map repeat]. rewrite IH. reflexivity. Qed.
Lemma sequence_link {A B C} (f : A -> outcome B) (g : A -> outcome C) h l : (forall x, In x l -> f x = (y <- g x ;; Ok (h y))) ->
  RecModel.sequence (map f l) = (ys <- RecModel.sequence (map g l) ;; Ok (map h ys)).
Proof.
  induction l as [|x l IH]; intros H; [reflexivity|]. cbn [map RecModel.sequence]. rewrite (H x (or_introl eq_refl)).
  rewrite IH by (intros y Y; apply H; right; exact Y). destruct (g x); try reflexivity. cbn [bind]. destruct (RecModel.sequence (map g l)); reflexivity.
Qed.
Lemma sequence_rows {F} np (all : list F) n : length all = (n * np)%nat ->
  RecModel.sequence (map (fun m => read_row np m all) (seq 0 n)) = Ok (map (RecProofs.row np all) (seq 0 n)).
Proof.
  intros L. assert (B : forall m, In m (seq 0 n) -> (m < n)%nat) by (intros m M; apply in_seq in M; lia). revert B. generalize (seq 0 n) as l.
  induction l as [|m l IH]; intros B; [reflexivity|]. cbn [map RecModel.sequence]. rewrite (read_row_ok np m all n) by (auto; apply B; left; reflexivity). cbn [bind].
  rewrite IH by (intros x X; apply B; right; exact X). reflexivity.
Qed.

Section Generic.
Variable nset : nat.
Variable ds : nat -> lcset.
Variable scale : nat -> nat -> R.
Variable ng : nat.
Variable uniform : nat.
Variable uniform_var : bool.
Variable nq : nat.
Variable nd_rec : nat.
Variables low_ext upp_ext : R.
Variable one : list R -> arr -> nat -> rec_out.
Notation np := (ParamModel.num_params nset (nlset ds) ng uniform uniform_var).
Notation pts := (points ds nd_rec).
Notation times := (set_times ds nd_rec low_ext upp_ext).
Notation each i t := (fun row => each_set ds scale (fun row tall => one row tall i) row (fun _ => pts i) t i).
Definition gen_set (num_ps : nat) (all : list R) (i : nat) :=
  ts <- times i ;;
  match ts with
  | None => Ok None
  | Some t => out <- seq_set nset ds scale ng uniform uniform_var nq (fun row tall => one row tall i) num_ps all (fun _ => pts i) t i ;;
      rows <- RecModel.sequence (map (fun m => read_row np m all) (seq 0 num_ps)) ;;
      Ok (Some (out, map (each i t) rows))
  end.
Lemma set_link jk T order num_ps all i : (1 <= T)%nat -> Permutation order (seq 0 T) -> (1 <= num_ps)%nat -> length all = (num_ps * np)%nat ->
  output_set nset ds scale ng uniform uniform_var nq nd_rec low_ext upp_ext (fun row tall _ i => one row tall i) false jk num_ps T order all i =
  (o <- gen_set num_ps all i ;; Ok (option_map fst o)).
Proof.
  intros HT HO HN HL. unfold output_set, gen_set. destruct (times i) as [ts| | |]; try reflexivity. cbn [bind]. destruct ts as [t|]; [|reflexivity].
  unfold seq_set. rewrite map_const. rewrite (C110_one_task _ jk _ np) by exact HL.
  rewrite (PropRec.C48_independent jk jk num_ps np T 1 order [0%nat]); auto; [|rewrite repeat_length, map_length, seq_length; reflexivity].
  destruct (RecModel.reconstruction _ _ _ _ _ _ _ _ _ _ _) as [[cs tr]| | |]; try reflexivity. cbn [bind]. rewrite (sequence_rows _ _ _ HL). cbn [bind option_map fst].
  do 3 f_equal. apply map_ext. intros c. unfold curve_rows, rows_of. rewrite offset_const. reflexivity.
Qed.

Variable ps : list (list R).
Variable P : nat -> list R -> nat -> R -> R -> R -> Prop.
Variable Q : nat -> list R -> arr -> Prop.
Hypothesis HS : List.Forall (fun r => length r = np) ps.
Hypothesis HN : (1 <= length ps)%nat.
Hypothesis HD : (2 <= nd_rec)%nat.
Hypothesis HP : forall i row tall, (i < nset)%nat -> In row ps ->
  let o := one row tall i in
  Q i row (rec_yq o) /\ forall c k, (c < 1 + s_nl (ds i))%nat -> (k < pts i)%nat ->
    P i row c (tall (c * pts i + k)%nat) (rec_f o (c * pts i + k)%nat) (rec_fe o (c * pts i + k)%nat).
Lemma rows_back : map (RecProofs.row np (concat ps)) (seq 0 (length ps)) = ps.
Proof.
  transitivity (map (fun m => nth m ps []) (seq 0 (length ps))).
  - apply map_ext_in. intros m M. apply in_seq in M. apply row_concat; [exact HS|lia].
  - clear. induction ps as [|r l IH]; [reflexivity|]. cbn [length seq map nth]. f_equal. rewrite <- seq_shift, map_map. exact IH.
Qed.
Lemma gen_written i : (i < nset)%nat -> set_in_order ds low_ext upp_ext i ->
  exists out ech, gen_set (length ps) (concat ps) i = Ok (Some (out, ech)) /\ written ds scale nq nd_rec low_ext upp_ext ps P Q i out
    /\ each_written ds scale ps P i out ech.
Proof.
  intros I IO. pose proof (length_concat ps np HS) as HL.
  destruct (set_out nset ds scale ng uniform uniform_var nq nd_rec low_ext upp_ext (fun row tall _ i => one row tall i) false ps P Q HS HN HD HP 0 1 [0%nat] i I IO (le_n 1) (Permutation_refl _))
    as (out & E & W).
  rewrite (set_link 0 1 [0%nat] (length ps) (concat ps) i (le_n 1) (Permutation_refl _) HN HL) in E.
  destruct (gen_set (length ps) (concat ps) i) as [[[out' ech]|]| | |] eqn:G; try discriminate. cbn [bind option_map fst] in E. injection E as ->.
  exists out, ech. split; [reflexivity|]. split; [exact W|].
  destruct (times_ok ds nd_rec low_ext upp_ext ps HN HD i IO) as (first & step & SP & ET & _).
  unfold gen_set in G. rewrite ET in G. cbn [bind] in G.
  set (g := map (fun k => first + INR k * step) (seq 0 (pts i))) in *.
  assert (LG : length g = pts i) by (unfold g; rewrite map_length, seq_length; reflexivity).
  set (ts := concat (repeat g (1 + s_nl (ds i)))) in *.
  unfold seq_set in G. destruct (seq_reconstruction _ _ _ _ _ _ _ _) as [[cs tr]| | |]; try discriminate. cbn [bind] in G.
  rewrite (sequence_rows _ _ _ HL) in G. cbn [bind] in G. rewrite rows_back in G.
  pose proof (f_equal (fun o => match o with Ok (Some (a, _)) => fst a | _ => [] end) G) as GO. cbv beta iota in GO. cbn [fst] in GO.
  pose proof (f_equal (fun o => match o with Ok (Some (_, b)) => b | _ => [] end) G) as GE. cbv beta iota in GE. clear G.
  assert (TA : forall c k, (c < 1 + s_nl (ds i))%nat -> (k < pts i)%nat -> nth (c * pts i + k) ts 0 = first + INR k * step).
  { intros c k C K. unfold ts. rewrite <- LG at 1. rewrite nth_concat_repeat by (rewrite ?LG; assumption). unfold g. rewrite nth_map_seq by exact K. reflexivity. }
  subst ech. split; [apply map_length|]. intros m row M. exists (each i ts row). split; [rewrite nth_error_map, M; reflexivity|]. split; [unfold each_set; rewrite map_length, seq_length; reflexivity|].
  intros j J. unfold each_set. rewrite nth_error_map_seq by exact J.
  destruct W as (first' & step' & _ & _ & _ & WC & _). assert (C : (1 + j < 1 + s_nl (ds i))%nat) by lia. destruct (WC (1 + j)%nat C) as (curve & C1 & C2 & _).
  assert (NN : Nat.min (3 * s_ncon (ds i)) nd_rec = pts i) by (unfold points, RecModel.rec_count; lia). rewrite NN in C2.
  eexists. exists curve. split; [reflexivity|]. split; [exact C1|]. split; [rewrite map_length, seq_length, C2; reflexivity|].
  intros k K. rewrite C2 in K. rewrite nth_error_map_seq by exact K. cbv zeta. rewrite offset_const.
  destruct (HP i row (fun a => nth a ts 0) I (nth_error_In _ _ M)) as [_ H]. specialize (H (1 + j)%nat k C K). cbv beta in H.
  destruct (nth_error curve k) as [[t q]|] eqn:NC; [|apply nth_error_None in NC; lia].
  exists t. eexists. eexists. exists q. split; [reflexivity|].
  assert (ET' : t = nth ((1 + j) * pts i + k) ts 0).
  { rewrite TA by assumption. rewrite <- GO in C1. rewrite (nth_error_map_seq (fun c => rows_of ts (fun _ => pts i) c (nth c cs []))) in C1 by exact C.
    assert (CE : curve = rows_of ts (fun _ => pts i) (1 + j) (nth (1 + j) cs [])) by congruence. rewrite CE in NC.
    unfold rows_of in NC. rewrite offset_const in NC. cbv beta in NC.
    assert (PR : firstn (pts i) (skipn ((1 + j) * pts i) ts) = g) by (unfold ts; rewrite <- LG; apply part_repeat; exact C).
    rewrite PR in NC.
    assert (X : forall (l : list R) (l' : list (R * R)) k a b, nth_error (combine l l') k = Some (a, b) -> nth_error l k = Some a).
    { clear. induction l as [|x l IH]; intros [|y l'] [|k] a b H; try discriminate; cbn in *; [congruence|]. apply (IH l' k a b H). }
    apply X in NC. change (nth_error (map (fun k => first + INR k * step) (seq 0 (pts i))) k = Some t) in NC. rewrite nth_error_map_seq in NC by exact K. injection NC as <-. reflexivity. }
  rewrite ET'. split; [exact H|reflexivity].
Qed.
End Generic.

(** ** Times of its own for every curve *)
Lemma part_map {A} (g : nat -> list A) n a c : (c < n)%nat -> firstn (length (g (a + c)%nat)) (skipn (offset (fun c => length (g (a + c)%nat)) c) (concat (map g (seq a n)))) = g (a + c)%nat.
Proof.
  revert a c. induction n as [|n IH]; intros a c C; [lia|]. cbn [seq map concat]. destruct c as [|c].
  - cbn [offset skipn]. rewrite Nat.add_0_r, firstn_app, Nat.sub_diag, firstn_O, app_nil_r. apply firstn_all.
  - assert (O : offset (fun c => length (g (a + c)%nat)) (S c) = (length (g a) + offset (fun c => length (g (S a + c)%nat)) c)%nat).
    { clear. induction c as [|c IH]; [cbn [offset]; rewrite Nat.add_0_r; lia|]. cbn [offset] in *. rewrite IH. replace (S a + c)%nat with (a + S c)%nat by lia. lia. }
    rewrite O, skipn_app, skipn_all2 by lia. replace (length (g a) + offset (fun c => length (g (S a + c)%nat)) c - length (g a))%nat with (offset (fun c => length (g (S a + c)%nat)) c) by lia.
    cbn [app]. replace (a + S c)%nat with (S a + c)%nat by lia. apply IH. lia.
Qed.
Lemma length_map_seq {A} (g : nat -> list A) n : length (concat (map g (seq 0 n))) = offset (fun c => length (g c)) n.
Proof. induction n as [|n IH]; [reflexivity|]. rewrite seq_S, map_app, concat_app, app_length, IH. cbn [map concat offset app Nat.add]. rewrite app_nil_r. reflexivity. Qed.
Lemma offset_ext f g c : (forall e, (e < c)%nat -> f e = g e) -> offset f c = offset g c.
Proof. induction c as [|c IH]; intros H; [reflexivity|]. cbn [offset]. rewrite IH, H by (try intros; try apply H; lia). reflexivity. Qed.
Lemma offset_le f g c : (forall e, (e < c)%nat -> (f e <= 3 * g e)%nat) -> (offset f c <= 3 * offset g c)%nat.
Proof. induction c as [|c IH]; intros H; [cbn; lia|]. cbn [offset]. pose proof (H c ltac:(lia)). assert (offset f c <= 3 * offset g c)%nat by (apply IH; intros; apply H; lia). lia. Qed.
Lemma nth_part {A} (l : list A) n a k d : (k < n)%nat -> nth k (firstn n (skipn a l)) d = nth (a + k) l d.
Proof.
  intros K. revert l. induction a as [|a IH]; intros l.
  - cbn [skipn Nat.add]. revert l k K. induction n as [|n IHn]; intros l k K; [lia|]. destruct l as [|x l]; [destruct k; reflexivity|]. destruct k as [|k]; [reflexivity|]. cbn [firstn nth]. apply IHn. lia.
  - destruct l as [|x l]; [cbn [skipn Nat.add nth]; rewrite firstn_nil; destruct k; reflexivity|]. cbn [skipn Nat.add nth]. apply IH.
Qed.
Lemma offset_fold f n c : (c <= n)%nat -> fold_right Nat.add 0%nat (firstn c (map f (seq 0 n))) = offset f c.
Proof.
  intros C. transitivity (fold_right Nat.add 0%nat (map f (seq 0 c))).
  - f_equal. replace n with (c + (n - c))%nat by lia. rewrite seq_app, map_app, firstn_app. rewrite map_length, seq_length, Nat.sub_diag, firstn_O, app_nil_r. apply firstn_all2. rewrite map_length, seq_length. lia.
  - clear C. induction c as [|c IH]; [reflexivity|]. rewrite seq_S, map_app, fold_right_app. cbn [map fold_right offset Nat.add].
    assert (X : forall l a, fold_right Nat.add a l = (fold_right Nat.add 0 l + a)%nat) by (clear; induction l as [|x l IHl]; intros a; cbn; [reflexivity|rewrite (IHl a); lia]).
    rewrite X, IH. lia.
Qed.

Section Own.
Variable nset : nat.
Variable ds : nat -> lcset.
Variable scale : nat -> nat -> R.
Variable ng : nat.
Variable uniform : nat.
Variable uniform_var : bool.
Variable nq : nat.
Variable nd_rec : nat.
Variable nall_max : nat.
Variable one : list R -> arr -> nat -> rec_out.
Notation np := (ParamModel.num_params nset (nlset ds) ng uniform uniform_var).
Notation pts := (own_points ds nd_rec).
Definition own_gen (num_ps : nat) (all : list R) (i : nat) :=
  ts <- own_times ds nd_rec nall_max i ;;
  match ts with
  | None => Ok None
  | Some t => out <- seq_set nset ds scale ng uniform uniform_var nq (fun row tall => one row tall i) num_ps all (pts i) t i ;; Ok (Some out)
  end.
Notation x0 i c := (times_of (s_tcon (ds i)) (s_tline (ds i)) c 0%nat).
Notation x1 i c := (times_of (s_tcon (ds i)) (s_tline (ds i)) c (set_curves ds i c - 1)%nat).
Notation start i c := (x0 i c - (x1 i c - x0 i c) / 20).
Notation step i c := ((x1 i c - x0 i c) * (11 / 10) / (INR (pts i c) - 1)).
Notation grid i c := (map (fun k => start i c + INR k * step i c) (seq 0 (pts i c))).
Hypothesis HD : (2 <= nd_rec)%nat.
Definition no_empty (i : nat) : Prop := forall c, (c < 1 + s_nl (ds i))%nat -> (1 <= set_curves ds i c)%nat.
Lemma own_grid_ok f n : (1 <= n)%nat -> let m := RecModel.rec_count n nd_rec in
  own_grid nd_rec (map f (seq 0 n)) = Ok (map Some (map (fun k => f 0%nat - (f (n - 1)%nat - f 0%nat) / 20 + INR k * ((f (n - 1)%nat - f 0%nat) * (11 / 10) / (INR m - 1))) (seq 0 m))).
Proof.
  intros N m. unfold own_grid, RecModel.last_. rewrite map_length, seq_length.
  assert (G : forall k, (k < n)%nat -> get (map f (seq 0 n)) k = Ok (f k)) by (intros k K; unfold get; rewrite nth_error_map_seq by exact K; reflexivity).
  destruct (map f (seq 0 n)) as [|y l] eqn:E; [destruct n; [lia|discriminate]|]. rewrite !G by lia. cbn [bind]. fold m.
  assert (M : (2 <= m)%nat) by (unfold m, RecModel.rec_count; lia). destruct (Nat.eqb_spec m 1) as [X|_]; [lia|]. f_equal. rewrite map_map. apply map_ext. intros k. f_equal.
  assert (INR m - 1 <> 0) by (pose proof (le_INR 2 m M) as H; cbn in H; lra). field. exact H.
Qed.
Lemma own_times_ok i : no_empty i -> (set_points ds i <= nall_max)%nat -> own_times ds nd_rec nall_max i = Ok (Some (concat (map (fun c => grid i c) (seq 0 (1 + s_nl (ds i)))))).
Proof.
  intros NE NM. unfold own_times. set (d := ds i) in *.
  assert (CL : map (s_tcon d) (seq 0 (s_ncon d)) :: map (fun j => map (s_tline d j) (seq 0 (s_nline d j))) (seq 0 (s_nl d))
    = map (fun c => map (times_of (s_tcon d) (s_tline d) c) (seq 0 (set_curves ds i c))) (seq 0 (1 + s_nl d))).
  { cbn [Nat.add seq map]. f_equal. rewrite <- seq_shift, map_map. reflexivity. }
  rewrite CL, map_map.
  assert (SQ : RecModel.sequence (map (fun c => own_grid nd_rec (map (times_of (s_tcon d) (s_tline d) c) (seq 0 (set_curves ds i c)))) (seq 0 (1 + s_nl d)))
    = Ok (map (fun c => map Some (grid i c)) (seq 0 (1 + s_nl d)))).
  { assert (B : forall c, In c (seq 0 (1 + s_nl d)) -> (c < 1 + s_nl d)%nat) by (intros c C; apply in_seq in C; lia). revert B. generalize (seq 0 (1 + s_nl d)) as l.
    induction l as [|c l IH]; intros B; [reflexivity|]. cbn [map RecModel.sequence]. rewrite own_grid_ok by (apply NE, B; left; reflexivity). cbn [bind].
    rewrite IH by (intros x X; apply B; right; exact X). cbn [bind]. reflexivity. }
  rewrite SQ. cbn [bind].
  rewrite <- (map_map (fun c => grid i c) (map Some)). rewrite <- concat_map, map_length, length_map_seq.
  match goal with |- (if (?a <=? ?b)%nat then _ else _) = _ => destruct (Nat.leb_spec a b) as [LE|LE] end.
  - rewrite numbers_map. reflexivity.
  - exfalso. rewrite (offset_ext _ (pts i)) in LE by (intros e _; rewrite map_length, seq_length; reflexivity).
    assert (X : (offset (pts i) (1 + s_nl d) <= 3 * offset (set_curves ds i) (1 + s_nl d))%nat).
    { apply offset_le. intros e _. unfold own_points, RecModel.rec_count, set_curves, narr_of. destruct e; lia. }
    assert (Y : offset (set_curves ds i) (1 + s_nl d) = set_points ds i).
    { rewrite offset_total, <- EndProofs.total_seq. unfold set_points, set_sizes. fold d. rewrite EndProofs.sizes_seq. reflexivity. }
    lia.
Qed.

Variable ps : list (list R).
Variable P : nat -> list R -> nat -> R -> R -> R -> Prop.
Variable Q : nat -> list R -> arr -> Prop.
Hypothesis HS : List.Forall (fun r => length r = np) ps.
Hypothesis HN : (1 <= length ps)%nat.
Hypothesis HP : forall i row tall, (i < nset)%nat -> In row ps ->
  let o := one row tall i in
  Q i row (rec_yq o) /\ forall c k, (c < 1 + s_nl (ds i))%nat -> (k < pts i c)%nat -> let a := (offset (pts i) c + k)%nat in
    P i row c (tall a) (rec_f o a) (rec_fe o a).
Lemma own_gen_written i : (i < nset)%nat -> no_empty i -> (set_points ds i <= nall_max)%nat ->
  exists out, own_gen (length ps) (concat ps) i = Ok (Some out) /\ own_written ds scale nq nd_rec ps P Q i out.
Proof.
  intros I NE NM. unfold own_gen. rewrite (own_times_ok i NE NM). cbn [bind]. set (g := fun c => grid i c). set (ts := concat (map g (seq 0 (1 + s_nl (ds i))))).
  assert (LG : forall c, length (g c) = pts i c) by (intros c; unfold g; rewrite map_length, seq_length; reflexivity).
  assert (PR : forall c, (c < 1 + s_nl (ds i))%nat -> firstn (pts i c) (skipn (offset (pts i) c) ts) = g c).
  { intros c C. rewrite <- LG. rewrite (offset_ext (pts i) (fun c => length (g (0 + c)%nat))) by (intros e _; cbn [Nat.add]; rewrite LG; reflexivity).
    exact (part_map g (1 + s_nl (ds i)) 0 c C). }
  assert (TA : forall c k, (c < 1 + s_nl (ds i))%nat -> (k < pts i c)%nat -> nth (offset (pts i) c + k) ts 0 = start i c + INR k * step i c).
  { intros c k C K. rewrite <- (nth_part ts (pts i c) (offset (pts i) c) k 0 K), PR by exact C. unfold g. rewrite nth_map_seq by exact K. reflexivity. }
  set (tall := fun a => nth a ts 0). set (rec := fun row => as_recon (one row tall i)).
  set (nc := (1 + s_nl (ds i))%nat) in *.
  destruct (PropRec.C48_result 0 (length ps) np 1 [0%nat] (map (pts i) (seq 0 nc)) nq (map (scale i) (seq 0 nc)) rec (concat ps) (le_n 1) HN (length_concat ps np HS) (Permutation_refl _))
    as (cs & tr & E & LC & LT & R).
  { rewrite !map_length, seq_length. reflexivity. }
  unfold seq_set. fold nc. rewrite (C110_one_task _ 0) by exact (length_concat ps np HS). fold tall. fold rec. rewrite E. cbn [bind]. eexists. split; [reflexivity|].
  rewrite map_length, seq_length in LC, LT. unfold own_written. fold nc. cbn [fst snd]. split; [rewrite map_length, seq_length; reflexivity|].
  split; [|split; [exact LT|]].
  - intros c C. cbn zeta.
    assert (NN : Nat.min (3 * set_curves ds i c) nd_rec = pts i c) by (unfold own_points, RecModel.rec_count, set_curves, narr_of; destruct c; lia). rewrite NN.
    assert (M : (2 <= pts i c)%nat) by (rewrite <- NN; pose proof (NE c C); lia).
    destruct (R c (pts i c) (scale i c) (nth_error_map_seq _ _ _ C) (nth_error_map_seq _ _ _ C)) as ((cur & C1 & C2) & R1 & _).
    rewrite (nth_error_map_seq (fun c => rows_of ts (pts i) c (nth c cs []))) by exact C. eexists. exists (start i c), (step i c). split; [reflexivity|].
    rewrite (nth_error_nth _ _ [] C1). unfold rows_of. rewrite PR by exact C.
    split; [rewrite combine_length, LG, C2; lia|]. split; [reflexivity|]. split.
    { rewrite minus_INR by lia. change (INR 1) with 1. pose proof (le_INR 2 _ M) as H. cbn in H. field. lra. }
    intros k K. destruct (R1 k K) as (cur' & C1' & V). rewrite C1 in C1'. injection C1' as <-. cbn zeta in V.
    rewrite offset_fold in V by lia. rewrite !(column_rows _ rec ps np _ HS) in V.
    exists (map (fun row => (rec_f (one row tall i) (offset (pts i) c + k)%nat, rec_fe (one row tall i) (offset (pts i) c + k)%nat)) ps).
    rewrite !map_map. cbn [fst snd]. split.
    + apply forall2_map. intros row RI. cbn [fst snd]. destruct (HP i row tall I RI) as [_ H]. specialize (H c k C K). cbn zeta in H. rewrite <- TA by assumption. exact H.
    + apply nth_error_combine; [unfold g; rewrite nth_error_map_seq by exact K; reflexivity|exact V].
  - exists (map (fun row => rec_yq (one row tall i)) ps). split.
    + apply forall2_map. intros row RI. exact (proj1 (HP i row tall I RI)).
    + intros c k C K. cbn zeta. rewrite !map_map. destruct (R c (pts i c) (scale i c) (nth_error_map_seq _ _ _ C) (nth_error_map_seq _ _ _ C)) as (_ & _ & R2).
      specialize (R2 k K). cbn zeta in R2. rewrite (column_rows _ rec ps np _ HS) in R2. exact R2.
Qed.
End Own.

(** ** The functions *)
Section Rows.
Context {IP : Type}.
Variable dsytrf : nat -> (nat -> nat -> R) -> (nat -> nat -> R) * IP.
Variable dsytri : nat -> (nat -> nat -> R) -> IP -> nat -> nat -> R.
Variables dtrtri dlauum : nat -> arr -> arr.
Variable log_erfc : R -> R.
Variable type_tf : nat.
Variable flag : bool.
Variable nset : nat.
Variable ds : nat -> lcset.
Variable scale : nat -> nat -> R.
Variable ng : nat.
Variable uniform : nat.
Variable uniform_var : bool.
Variable nq : nat.
Variable nd_rec : nat.
Variables low_ext upp_ext : R.
Variable junk : nat -> nat -> nat.
Variable fd : list R -> nat -> found.
Variable rd : list R -> nat -> rec_found.
Variable nall_max : nat.
Notation li := (line_index nset ds ng uniform uniform_var junk).
Notation ci := (con_index uniform_var).
Notation np := (ParamModel.num_params nset (nlset ds) ng uniform uniform_var).
Notation seq_out := (output_reconstruction dsytrf dsytri dtrtri dlauum log_erfc type_tf flag nset ds scale ng uniform uniform_var nq nd_rec low_ext upp_ext junk fd rd).
Notation seq_out2 := (output_reconstruction2 dsytrf dsytri dtrtri dlauum log_erfc type_tf flag nset ds scale ng uniform uniform_var nq nd_rec junk fd rd nall_max).
Notation par_out := (output_reconstruction_parallel dsytrf dsytri dtrtri dlauum log_erfc type_tf flag nset ds scale ng uniform uniform_var nq nd_rec low_ext upp_ext junk fd rd).

(** The parallel function writes what output_reconstruction writes to pall.txt and trend.txt,
    for any number of tasks, combined in any order: real numbers; any data, also when a time
    is NaN or a curve is empty. *)
Theorem C110_same jk T order num_ps all : (1 <= T)%nat -> (1 <= num_ps)%nat -> length all = (num_ps * np)%nat ->
  (forall i, (i < nset)%nat -> Permutation (order i) (seq 0 T)) ->
  par_out false jk num_ps T order all = (outs <- seq_out false true true true num_ps all ;; Ok (map (option_map fst) outs)).
Proof.
  intros HT HN HL HO. unfold output_reconstruction_parallel, output_all, output_reconstruction. cbn [negb].
  apply sequence_link. intros i I. apply in_seq in I.
  exact (set_link nset ds scale ng uniform uniform_var nq nd_rec low_ext upp_ext
    (fun row tall i => rec_one dsytrf dsytri dtrtri dlauum log_erfc type_tf flag nset ds ng uniform uniform_var nq nd_rec junk fd rd row tall (row_values row) i)
    jk T (order i) num_ps all i HT (HO i ltac:(lia)) HN HL).
Qed.

Variable ps : list (list R).
Variables SS Si L : nat -> list R -> nat -> nat -> R.
Notation par := row_values.
Notation best psi := (best_row ds uniform_var nq SS L psi).
Notation trend := (trend_row ds nq Si L).
Notation rok psi := (row_ok nset ds ng uniform uniform_var nq fd SS Si L psi).
Notation sok := (sample_ok nset ds ng uniform uniform_var nd_rec ps).
Hypothesis LS : dsytr_spec dsytrf dsytri.
Hypothesis LT : dtrtri_spec dtrtri.
Hypothesis LL : dlauum_spec dlauum.

(** the reconstruction of one set for one row, any numbers of times *)
Lemma at_best psi i row tall nall p' : (i < nset)%nat -> rok psi i row -> same_errors nset ds ng uniform uniform_var (par row) p' i ->
  EndProofs.exact_kernels (set_taud uniform_var (par row) i) (s_nl (ds i)) (psi row i) (pointers log_erfc type_tf flag ci li ng p' i) ->
  (forall j, (j < s_nl (ds i))%nat -> of_shapes (psi row i j)) ->
  let o := rec_at dsytrf dsytri dtrtri dlauum log_erfc type_tf flag nset ds ng uniform uniform_var nq junk fd rd nall row tall p' i in
  trend i row (rec_yq o) /\ forall c k, (c < 1 + s_nl (ds i))%nat -> (k < nall c)%nat -> let a := (offset nall c + k)%nat in
    best psi i row c (tall a) (rec_f o a) (rec_fe o a).
Proof.
  intros I (OK & AP & (D & IV & TD)) SE EK SH. pose proof OK as (NQ & NL & NC & ORD & _ & ET). set (d := ds i) in *. set (f := fd row i) in *. set (r := rd row i).
  set (K := pointers log_erfc type_tf flag ci li ng p' i) in *.
  pose proof (EK' nset ds ng uniform uniform_var (par row) i I (psi row) p' SE K EK) as EK2.
  pose proof (EndProofs.rec_generic (s_ncon d) (s_tcon d) (s_fe d) (s_em d) (s_nl d) (s_nline d) (s_tline d) (s_fel d) (s_eml d) p' (ci i) (li i) (psi row i) K
    EK2 SH (err_pos nset ds ng uniform uniform_var nq junk (par row) i I p' SE OK) dsytrf dsytri dtrtri dlauum (s_fall d) nq
    (f_mem f) (f_A f) (f_wk f) (f_L f) (f_W f) (f_D f) (f_phi f) NQ NL NC ORD ET AP nall tall (r_US r) (r_AS r) (r_L r) (r_f r) (r_PE r) _ (SS i row) (Si i row) (L i row) LS LT LL
    (EndProofs.scalar_filled (s_ncon d) (s_tcon d) (s_fe d) (s_em d) (s_nl d) (s_nline d) (s_tline d) (s_fel d) (s_eml d) p' (ci i) (li i) (psi row i) K EK2 (f_PS f) (f_mem f) (f_A f))
    (cov_to nset ds ng uniform uniform_var junk (par row) i I (psi row) p' SE (SS i row) D) IV TD) as [H1 H2].
  split; [exact H1|]. intros c k C KK a. destruct (H2 c k C KK) as (u & V & U1 & V1 & B).
  rewrite (sig_eq nset ds ng uniform uniform_var (par row) i I p' SE), (taud_eq nset ds ng uniform uniform_var (par row) i I p' SE) in U1, V1.
  unfold a. rewrite offset_total. exists u, V. split; [exact U1|]. split; [exact V1|exact B].
Qed.
(** what every row needs: its parameters, as transformed, give the response functions psi *)
Definition fits (ratio : bool) (psi : list R -> nat -> nat -> R -> R) : Prop := forall i row, (i < nset)%nat -> In row ps ->
  rok psi i row /\ let p' := seq_params nset ds ng uniform uniform_var ratio row in
    same_errors nset ds ng uniform uniform_var (par row) p' i /\
    EndProofs.exact_kernels (set_taud uniform_var (par row) i) (s_nl (ds i)) (psi row i) (pointers log_erfc type_tf flag ci li ng p' i) /\
    (forall j, (j < s_nl (ds i))%nat -> of_shapes (psi row i j)).
(** all sets written *)
Definition all_seq_written (psi : list R -> nat -> nat -> R -> R) (outs : list (option (list (list (R * (R * R))) * list (R * R) * list (list (list (R * (R * R))))))) : Prop :=
  length outs = nset /\ forall i, (i < nset)%nat -> exists out each, nth_error outs i = Some (Some (out, each)) /\
    written ds scale nq nd_rec low_ext upp_ext ps (best psi) trend i out /\ each_written ds scale ps (best psi) i out each.
Definition all_own_written (psi : list R -> nat -> nat -> R -> R) (outs : list (option (list (list (R * (R * R))) * list (R * R)))) : Prop :=
  length outs = nset /\ forall i, (i < nset)%nat -> exists out, nth_error outs i = Some (Some out) /\ own_written ds scale nq nd_rec ps (best psi) trend i out.
Lemma seq_all ratio psi : sok -> fits ratio psi -> (forall i, (i < nset)%nat -> set_in_order ds low_ext upp_ext i) ->
  exists outs, seq_out ratio true true true (length ps) (concat ps) = Ok outs /\ all_seq_written psi outs.
Proof.
  intros (HS & HN & HD) F IO. unfold output_reconstruction. cbn [negb].
  destruct (sequence_all nd_rec ps HN HD (output_reconstruction_set dsytrf dsytri dtrtri dlauum log_erfc type_tf flag nset ds scale ng uniform uniform_var nq nd_rec low_ext upp_ext junk fd rd ratio (length ps) (concat ps))
    (fun i o => exists out each, o = Some (out, each) /\ written ds scale nq nd_rec low_ext upp_ext ps (best psi) trend i out /\ each_written ds scale ps (best psi) i out each) nset) as (xs & E & LX & X).
  - intros i I. destruct (gen_written nset ds scale ng uniform uniform_var nq nd_rec low_ext upp_ext
      (fun row tall i => rec_one dsytrf dsytri dtrtri dlauum log_erfc type_tf flag nset ds ng uniform uniform_var nq nd_rec junk fd rd row tall (seq_params nset ds ng uniform uniform_var ratio row) i)
      ps (best psi) trend HS HN HD) with (i := i) as (out & ech & G & W); auto.
    + intros i' row tall I' RI. cbn zeta. destruct (F i' row I' RI) as (RK & SE & EK & SH).
      destruct (at_best psi i' row tall (fun _ => points ds nd_rec i') _ I' RK SE EK SH) as [A1 A2]. split; [exact A1|].
      intros c k C K. specialize (A2 c k C K). cbn zeta in A2. rewrite offset_const in A2. exact A2.
    + exists (Some (out, ech)). split; [exact G|]. exists out, ech. split; [reflexivity|exact W].
  - exists xs. split; [exact E|]. split; [exact LX|]. intros i I. destruct (X i I) as (x & X1 & out & ech & -> & W). exists out, ech. split; [exact X1|exact W].
Qed.
Lemma own_all ratio psi : sok -> fits ratio psi -> (forall i, (i < nset)%nat -> no_empty ds i /\ (set_points ds i <= nall_max)%nat) ->
  exists outs, seq_out2 ratio true true (length ps) (concat ps) = Ok outs /\ all_own_written psi outs.
Proof.
  intros (HS & HN & HD) F IO. unfold output_reconstruction2. cbn [negb].
  destruct (sequence_all nd_rec ps HN HD (output_reconstruction2_set dsytrf dsytri dtrtri dlauum log_erfc type_tf flag nset ds scale ng uniform uniform_var nq nd_rec junk fd rd nall_max ratio (length ps) (concat ps))
    (fun i o => exists out, o = Some out /\ own_written ds scale nq nd_rec ps (best psi) trend i out) nset) as (xs & E & LX & X).
  - intros i I. destruct (own_gen_written nset ds scale ng uniform uniform_var nq nd_rec nall_max
      (fun row tall i => rec_at dsytrf dsytri dtrtri dlauum log_erfc type_tf flag nset ds ng uniform uniform_var nq junk fd rd (own_points ds nd_rec i) row tall (seq_params nset ds ng uniform uniform_var ratio row) i)
      HD ps (best psi) trend HS HN) with (i := i) as (out & G & W); auto; [|apply IO, I|apply IO, I|].
    + intros i' row tall I' RI. cbn zeta. destruct (F i' row I' RI) as (RK & SE & EK & SH).
      exact (at_best psi i' row tall (own_points ds nd_rec i') _ I' RK SE EK SH).
    + exists (Some out). split; [exact G|]. exists out. split; [reflexivity|exact W].
  - exists xs. split; [exact E|]. split; [exact LX|]. intros i I. destruct (X i I) as (x & X1 & out & -> & W). exists out. split; [exact X1|exact W].
Qed.
Notation psi_g := (fun row i j => response (PropCov.shape_of type_tf) ng (component nset ds ng uniform uniform_var (par row) (decode flag) i j)).
Notation psi_r := (fun row i j => response (PropCov.shape_of type_tf) ng (ratio_component nset ds ng uniform uniform_var (par row) i j)).
Lemma fits_general : (forall i row, (i < nset)%nat -> In row ps -> rok psi_g i row /\ set_good ds ng uniform_var (par row) log_erfc type_tf (component nset ds ng uniform uniform_var (par row) (decode flag)) i) ->
  fits false psi_g.
Proof.
  intros H i row I RI. destruct (H i row I RI) as [RK G]. split; [exact RK|]. cbn zeta. unfold seq_params.
  pose proof (same_self nset ds ng uniform uniform_var (par row) i) as SE. split; [exact SE|].
  exact (general_K log_erfc type_tf nset ds ng uniform uniform_var junk (par row) flag (component nset ds ng uniform uniform_var (par row) (decode flag)) (par row) i I SE (fun _ _ _ _ => eq_refl) G).
Qed.
Lemma fits_ratio : (1 <= ng)%nat -> flag = false ->
  (forall i row, (i < nset)%nat -> In row ps -> rok psi_r i row /\ set_good ds ng uniform_var (par row) log_erfc type_tf (ratio_component nset ds ng uniform uniform_var (par row)) i) ->
  fits true psi_r.
Proof.
  intros NG FL H i row I RI. destruct (H i row I RI) as [RK G]. split; [exact RK|]. cbn zeta. unfold seq_params.
  assert (NP : (ParamModel.num_params_var nset uniform_var + ParamSpec.nlines nset (nlset ds) uniform * (1 + 3 * ng))%nat = np) by (unfold ParamModel.num_params; rewrite ParamProofs.npl_lines; unfold ParamModel.per_line; lia).
  destruct (PropSmall.C53_copy Rplus ng (ParamModel.num_params_var nset uniform_var) (ParamSpec.nlines nset (nlset ds) uniform) 0 np (par row) NG) as (M' & E & TR & _); [rewrite NP; left; lia|].
  replace (ParamModel.num_params_line nset (nlset ds) ng uniform) with (ParamSpec.nlines nset (nlset ds) uniform * (1 + 3 * ng))%nat by (rewrite ParamProofs.npl_lines; unfold ParamModel.per_line; lia).
  rewrite NP in E, TR. rewrite E. destruct (ratio_pt nset ds ng uniform uniform_var (par row) (fun a => M' (np + a)%nat) TR i I) as [SE EQ]. split; [exact SE|].
  rewrite FL. exact (general_K log_erfc type_tf nset ds ng uniform uniform_var junk (par row) false (ratio_component nset ds ng uniform uniform_var (par row)) (fun a => M' (np + a)%nat) i I SE EQ G).
Qed.
(** output_reconstruction writes the means of the best predictions, their spreads and, row by
    row, the best predictions themselves: general and ratio modes. *)
Theorem C110_general : sok ->
  (forall i, (i < nset)%nat -> set_in_order ds low_ext upp_ext i) ->
  (forall i row, (i < nset)%nat -> In row ps -> rok psi_g i row /\ set_good ds ng uniform_var (par row) log_erfc type_tf (component nset ds ng uniform uniform_var (par row) (decode flag)) i) ->
  exists outs, seq_out false true true true (length ps) (concat ps) = Ok outs /\ all_seq_written psi_g outs.
Proof. intros SO IO H. apply seq_all; [exact SO|exact (fits_general H)|exact IO]. Qed.
Theorem C110_ratio : sok -> (1 <= ng)%nat -> flag = false ->
  (forall i, (i < nset)%nat -> set_in_order ds low_ext upp_ext i) ->
  (forall i row, (i < nset)%nat -> In row ps -> rok psi_r i row /\ set_good ds ng uniform_var (par row) log_erfc type_tf (ratio_component nset ds ng uniform uniform_var (par row)) i) ->
  exists outs, seq_out true true true true (length ps) (concat ps) = Ok outs /\ all_seq_written psi_r outs.
Proof. intros SO NG FL IO H. apply seq_all; [exact SO|exact (fits_ratio NG FL H)|exact IO]. Qed.
(** output_reconstruction2 does so at times of its own for every curve; its arrays are long
    enough when nall_max is at least the number of points of every set. *)
Theorem C110_own : sok ->
  (forall i, (i < nset)%nat -> no_empty ds i /\ (set_points ds i <= nall_max)%nat) ->
  (forall i row, (i < nset)%nat -> In row ps -> rok psi_g i row /\ set_good ds ng uniform_var (par row) log_erfc type_tf (component nset ds ng uniform uniform_var (par row) (decode flag)) i) ->
  exists outs, seq_out2 false true true (length ps) (concat ps) = Ok outs /\ all_own_written psi_g outs.
Proof. intros SO IO H. apply own_all; [exact SO|exact (fits_general H)|exact IO]. Qed.
Theorem C110_own_ratio : sok -> (1 <= ng)%nat -> flag = false ->
  (forall i, (i < nset)%nat -> no_empty ds i /\ (set_points ds i <= nall_max)%nat) ->
  (forall i row, (i < nset)%nat -> In row ps -> rok psi_r i row /\ set_good ds ng uniform_var (par row) log_erfc type_tf (ratio_component nset ds ng uniform uniform_var (par row)) i) ->
  exists outs, seq_out2 true true true (length ps) (concat ps) = Ok outs /\ all_own_written psi_r outs.
Proof. intros SO NG FL IO H. apply own_all; [exact SO|exact (fits_ratio NG FL H)|exact IO]. Qed.
End Rows.
Print Assumptions C110_same. Print Assumptions C110_general. Print Assumptions C110_ratio. Print Assumptions C110_own. Print Assumptions C110_own_ratio.

(** ** Files *)
Lemma fold_exit {F} (ops : RecModel.arith F) np nall nq (rec : list F -> RecModel.recon F) (all : list F) l : fold_left (fun acc m => s <- acc ;; row <- read_row np m all ;; Ok (RecModel.add_row ops nall nq (rec row) s)) l Exit = Exit.
Proof. induction l as [|m l IH]; [reflexivity|]. cbn [fold_left bind]. exact IH. Qed.
Lemma seq_sums_short {F} (ops : RecModel.arith F) num_ps np nall nq rec all : (length all < num_ps * np)%nat -> seq_sums ops num_ps np nall nq rec all = Exit.
Proof.
  intros H. unfold seq_sums.
  assert (X : exists m, In m (seq 0 num_ps) /\ read_row np m all = Exit).
  { destruct num_ps as [|n]; [lia|]. exists n. split; [apply in_seq; lia|]. unfold read_row. destruct (Nat.leb_spec (n * np + np) (length all)); [lia|reflexivity]. }
  revert X. generalize (seq 0 num_ps) as l. generalize (RecModel.sums0 ops) as s. intros s l. revert s.
  induction l as [|m l IH]; intros s (x & XX & E); [destruct XX|]. cbn [fold_left bind]. destruct XX as [XM|XI].
  - rewrite XM, E. cbn [bind]. apply fold_exit.
  - destruct (read_row np m all) as [row| | |] eqn:RR; cbn [bind]; [|apply fold_exit|unfold read_row in RR; destruct (Nat.leb _ _); discriminate|unfold read_row in RR; destruct (Nat.leb _ _); discriminate].
    apply IH. exists x. split; assumption.
Qed.
Section Files.
Context {IP : Type}.
Variable dsytrf : nat -> (nat -> nat -> R) -> (nat -> nat -> R) * IP.
Variable dsytri : nat -> (nat -> nat -> R) -> IP -> nat -> nat -> R.
Variables dtrtri dlauum : nat -> arr -> arr.
Variable log_erfc : R -> R.
Variable type_tf : nat.
Variable flag : bool.
Variable nset : nat.
Variable ds : nat -> lcset.
Variable scale : nat -> nat -> R.
Variable ng : nat.
Variable uniform : nat.
Variable uniform_var : bool.
Variable nq : nat.
Variable nd_rec : nat.
Variables low_ext upp_ext : R.
Variable junk : nat -> nat -> nat.
Variable fd : list R -> nat -> found.
Variable rd : list R -> nat -> rec_found.
Variable nall_max : nat.
Notation np := (ParamModel.num_params nset (nlset ds) ng uniform uniform_var).
Notation seq_out := (output_reconstruction dsytrf dsytri dtrtri dlauum log_erfc type_tf flag nset ds scale ng uniform uniform_var nq nd_rec low_ext upp_ext junk fd rd).
Notation seq_out2 := (output_reconstruction2 dsytrf dsytri dtrtri dlauum log_erfc type_tf flag nset ds scale ng uniform uniform_var nq nd_rec junk fd rd nall_max).
(** A sample file with fewer numbers than its first line announces ends the program. *)
Theorem C110_short ratio num_ps all : (1 <= nset)%nat -> (2 <= nd_rec)%nat -> (length all < num_ps * np)%nat ->
  (set_in_order ds low_ext upp_ext 0 -> seq_out ratio true true true num_ps all = Exit) /\
  (no_empty ds 0 -> (set_points ds 0 <= nall_max)%nat -> seq_out2 ratio true true num_ps all = Exit).
Proof.
  intros NS HD H. destruct nset as [|n] eqn:EN; [lia|]. split.
  - intros IO. unfold output_reconstruction. cbn [negb seq map RecModel.sequence]. unfold output_reconstruction_set.
    destruct (times_ok ds nd_rec low_ext upp_ext [[]] (le_n 1) HD 0 IO) as (first & step & _ & ET & _). rewrite ET. cbn [bind]. unfold seq_set, seq_reconstruction.
    rewrite seq_sums_short by exact H. reflexivity.
  - intros NE NM. unfold output_reconstruction2. cbn [negb seq map RecModel.sequence]. unfold output_reconstruction2_set.
    rewrite own_times_ok by assumption. cbn [bind]. unfold seq_set, seq_reconstruction. rewrite seq_sums_short by exact H. reflexivity.
Qed.
End Files.
Print Assumptions C110_short.
(** Full statement: when an output file cannot be opened the program says so and ends.  False
    of pall_each.txt: the wrong pointer is tested, and the null pointer is given to fprintf. *)
Theorem C110_unopened_refuted : exists pall each trend, each = false /\
  (forall IP dsytrf dsytri dtrtri dlauum log_erfc type_tf flag nset ds scale ng uniform uniform_var nq nd_rec low_ext upp_ext junk fd rd ratio num_ps all,
     @output_reconstruction IP dsytrf dsytri dtrtri dlauum log_erfc type_tf flag nset ds scale ng uniform uniform_var nq nd_rec low_ext upp_ext junk fd rd ratio pall each trend num_ps all = UB).
Proof. exists true, false, true. split; [reflexivity|]. intros. reflexivity. Qed.
Print Assumptions C110_unopened_refuted.

(** ** Cases meeting the hypotheses *)
(** The two sets of C82 with any fluxes, linear trends, two top-hats per line; two rows of any
    41 numbers.  Set 1 has 13 points. *)
Lemma out_full fall i : (i < 2)%nat -> no_empty (out_sets fall) i /\ (set_points (out_sets fall) i <= 13)%nat.
Proof.
  intros I. split; [|assert (i = 0 \/ i = 1)%nat as [-> | ->] by lia; vm_compute; lia].
  intros [|c] C; unfold set_curves; cbn [narr_of out_sets s_ncon s_nline]; lia.
Qed.
Lemma out_apart fall mem i : (i < 2)%nat -> separate (out_sets fall) (case_found mem) i.
Proof. intros I. left. assert (i = 0 \/ i = 1)%nat as [-> | ->] by lia; cbn; lia. Qed.
Example C110_case fall scale mem r1 r2 : length r1 = 41%nat -> length r2 = 41%nat -> exists SS Si L outs outs',
  output_reconstruction ref_dsytrf ref_dsytri ref_dtrtri ref_dlauum (fun _ => 0) 1 false 2 (out_sets fall) scale 2 0 false 2 200 (-10) 10 (fun _ _ => 0%nat)
    (fun _ => case_found mem) (fun _ _ => RecFound mem mem mem mem mem) false true true true 2 (r1 ++ r2) = Ok outs
  /\ all_seq_written 2 (out_sets fall) scale false 2 200 (-10) 10 [r1; r2] SS Si L
       (fun row i j => response tophat 2 (component 2 (out_sets fall) 2 0 false (row_values row) exp i j)) outs
  /\ output_reconstruction2 ref_dsytrf ref_dsytri ref_dtrtri ref_dlauum (fun _ => 0) 1 false 2 (out_sets fall) scale 2 0 false 2 200 (fun _ _ => 0%nat)
    (fun _ => case_found mem) (fun _ _ => RecFound mem mem mem mem mem) 13 false true true 2 (r1 ++ r2) = Ok outs'
  /\ all_own_written 2 (out_sets fall) scale false 2 200 [r1; r2] SS Si L
       (fun row i j => response tophat 2 (component 2 (out_sets fall) 2 0 false (row_values row) exp i j)) outs'.
Proof.
  intros L1 L2.
  assert (H : forall x : nat * list R, exists y : (nat -> nat -> R) * (nat -> nat -> R) * (nat -> nat -> R), (fst x < 2)%nat ->
    set_described 2 (out_sets fall) 2 0 false 2 (row_values (snd x)) (fun i j => response tophat 2 (component 2 (out_sets fall) 2 0 false (row_values (snd x)) exp i j)) (fst x) (fst (fst y)) (snd (fst y)) (snd y)).
  { intros [i row]. cbn [fst snd]. destruct (Nat.lt_ge_cases i 2) as [I|I]; [|exists (fun _ _ => 0, fun _ _ => 0, fun _ _ => 0); intros; lia].
    destruct (C74_described (fun _ => 0) 1 false 2 (out_sets fall) 2 0 false 2 (fun _ _ => 0%nat) (row_values row) i I (out_ok fall 0 false _ i I) Logic.I) as (a & b & c & D).
    exists (a, b, c). intros _. exact D. }
  apply ClassicalChoice.choice in H. destruct H as [g D].
  exists (fun i row => fst (fst (g (i, row)))), (fun i row => snd (fst (g (i, row)))), (fun i row => snd (g (i, row))).
  assert (SO : sample_ok 2 (out_sets fall) 2 0 false 200 [r1; r2]).
  { split; [|split; [cbn; lia|lia]]. constructor; [rewrite L1; reflexivity|]. constructor; [rewrite L2; reflexivity|constructor]. }
  destruct (C110_general ref_dsytrf ref_dsytri ref_dtrtri ref_dlauum (fun _ => 0) 1 false 2 (out_sets fall) scale 2 0 false 2 200 (-10) 10 (fun _ _ => 0%nat)
    (fun _ => case_found mem) (fun _ _ => RecFound mem mem mem mem mem) [r1; r2]
    (fun i row => fst (fst (g (i, row)))) (fun i row => snd (fst (g (i, row)))) (fun i row => snd (g (i, row))) C29_contract_met dtrtri_exists dlauum_exists SO) as (outs & E & W).
  { intros i I. apply out_order, I. }
  { intros i row I _. split; [|exact Logic.I]. split; [apply out_ok, I|]. split; [apply out_apart, I|exact (D (i, row) I)]. }
  destruct (C110_own ref_dsytrf ref_dsytri ref_dtrtri ref_dlauum (fun _ => 0) 1 false 2 (out_sets fall) scale 2 0 false 2 200 (fun _ _ => 0%nat)
    (fun _ => case_found mem) (fun _ _ => RecFound mem mem mem mem mem) 13 [r1; r2]
    (fun i row => fst (fst (g (i, row)))) (fun i row => snd (fst (g (i, row)))) (fun i row => snd (g (i, row))) C29_contract_met dtrtri_exists dlauum_exists SO) as (outs' & E' & W').
  { intros i I. apply out_full, I. }
  { intros i row I _. split; [|exact Logic.I]. split; [apply out_ok, I|]. split; [apply out_apart, I|exact (D (i, row) I)]. }
  cbn [concat length] in E, E'. rewrite app_nil_r in E, E'. exists outs, outs'. auto.
Qed.
(** the same in the ratio mode *)
Example C110_ratio_case fall scale mem r1 r2 : length r1 = 41%nat -> length r2 = 41%nat -> exists SS Si L outs outs',
  output_reconstruction ref_dsytrf ref_dsytri ref_dtrtri ref_dlauum (fun _ => 0) 1 false 2 (out_sets fall) scale 2 0 false 2 200 (-10) 10 (fun _ _ => 0%nat)
    (fun _ => case_found mem) (fun _ _ => RecFound mem mem mem mem mem) true true true true 2 (r1 ++ r2) = Ok outs
  /\ all_seq_written 2 (out_sets fall) scale false 2 200 (-10) 10 [r1; r2] SS Si L
       (fun row i j => response tophat 2 (ratio_component 2 (out_sets fall) 2 0 false (row_values row) i j)) outs
  /\ output_reconstruction2 ref_dsytrf ref_dsytri ref_dtrtri ref_dlauum (fun _ => 0) 1 false 2 (out_sets fall) scale 2 0 false 2 200 (fun _ _ => 0%nat)
    (fun _ => case_found mem) (fun _ _ => RecFound mem mem mem mem mem) 13 true true true 2 (r1 ++ r2) = Ok outs'
  /\ all_own_written 2 (out_sets fall) scale false 2 200 [r1; r2] SS Si L
       (fun row i j => response tophat 2 (ratio_component 2 (out_sets fall) 2 0 false (row_values row) i j)) outs'.
Proof.
  intros L1 L2.
  assert (H : forall x : nat * list R, exists y : (nat -> nat -> R) * (nat -> nat -> R) * (nat -> nat -> R), (fst x < 2)%nat ->
    set_described 2 (out_sets fall) 2 0 false 2 (row_values (snd x)) (fun i j => response tophat 2 (ratio_component 2 (out_sets fall) 2 0 false (row_values (snd x)) i j)) (fst x) (fst (fst y)) (snd (fst y)) (snd y)).
  { intros [i row]. cbn [fst snd]. destruct (Nat.lt_ge_cases i 2) as [I|I]; [|exists (fun _ _ => 0, fun _ _ => 0, fun _ _ => 0); intros; lia].
    destruct (C75_described (fun _ => 0) 1 2 (out_sets fall) 2 0 false 2 (fun _ _ => 0%nat) (row_values row) i I (out_ok fall 0 false _ i I) Logic.I ltac:(lia)) as (a & b & c & D).
    exists (a, b, c). intros _. exact D. }
  apply ClassicalChoice.choice in H. destruct H as [g D].
  exists (fun i row => fst (fst (g (i, row)))), (fun i row => snd (fst (g (i, row)))), (fun i row => snd (g (i, row))).
  assert (SO : sample_ok 2 (out_sets fall) 2 0 false 200 [r1; r2]).
  { split; [|split; [cbn; lia|lia]]. constructor; [rewrite L1; reflexivity|]. constructor; [rewrite L2; reflexivity|constructor]. }
  destruct (C110_ratio ref_dsytrf ref_dsytri ref_dtrtri ref_dlauum (fun _ => 0) 1 false 2 (out_sets fall) scale 2 0 false 2 200 (-10) 10 (fun _ _ => 0%nat)
    (fun _ => case_found mem) (fun _ _ => RecFound mem mem mem mem mem) [r1; r2]
    (fun i row => fst (fst (g (i, row)))) (fun i row => snd (fst (g (i, row)))) (fun i row => snd (g (i, row))) C29_contract_met dtrtri_exists dlauum_exists SO ltac:(lia) eq_refl) as (outs & E & W).
  { intros i I. apply out_order, I. }
  { intros i row I _. split; [|exact Logic.I]. split; [apply out_ok, I|]. split; [apply out_apart, I|exact (D (i, row) I)]. }
  destruct (C110_own_ratio ref_dsytrf ref_dsytri ref_dtrtri ref_dlauum (fun _ => 0) 1 false 2 (out_sets fall) scale 2 0 false 2 200 (fun _ _ => 0%nat)
    (fun _ => case_found mem) (fun _ _ => RecFound mem mem mem mem mem) 13 [r1; r2]
    (fun i row => fst (fst (g (i, row)))) (fun i row => snd (fst (g (i, row)))) (fun i row => snd (g (i, row))) C29_contract_met dtrtri_exists dlauum_exists SO ltac:(lia) eq_refl) as (outs' & E' & W').
  { intros i I. apply out_full, I. }
  { intros i row I _. split; [|exact Logic.I]. split; [apply out_ok, I|]. split; [apply out_apart, I|exact (D (i, row) I)]. }
  cbn [concat length] in E, E'. rewrite app_nil_r in E, E'. exists outs, outs'. auto.
Qed.
(** two tasks, combined in either order; a file with one row too few *)
Example C110_same_case fall scale mem r1 r2 : length r1 = 41%nat -> length r2 = 41%nat ->
  output_reconstruction_parallel ref_dsytrf ref_dsytri ref_dtrtri ref_dlauum (fun _ => 0) 1 false 2 (out_sets fall) scale 2 0 false 2 200 (-10) 10 (fun _ _ => 0%nat)
    (fun _ => case_found mem) (fun _ _ => RecFound mem mem mem mem mem) false 7 2 2 (fun i => if Nat.eqb i 0 then [0; 1]%nat else [1; 0]%nat) (r1 ++ r2) =
  (outs <- output_reconstruction ref_dsytrf ref_dsytri ref_dtrtri ref_dlauum (fun _ => 0) 1 false 2 (out_sets fall) scale 2 0 false 2 200 (-10) 10 (fun _ _ => 0%nat)
    (fun _ => case_found mem) (fun _ _ => RecFound mem mem mem mem mem) false true true true 2 (r1 ++ r2) ;; Ok (map (option_map fst) outs)).
Proof.
  intros L1 L2. apply C110_same; [lia|lia|rewrite app_length, L1, L2; reflexivity|]. intros i I. destruct (Nat.eqb i 0); cbn [seq]; [apply Permutation_refl|apply perm_swap].
Qed.
Example C110_short_case fall scale mem r1 : length r1 = 41%nat ->
  output_reconstruction ref_dsytrf ref_dsytri ref_dtrtri ref_dlauum (fun _ => 0) 1 false 2 (out_sets fall) scale 2 0 false 2 200 (-10) 10 (fun _ _ => 0%nat)
    (fun _ => case_found mem) (fun _ _ => RecFound mem mem mem mem mem) false true true true 2 r1 = Exit.
Proof.
  intros L1. apply (C110_short ref_dsytrf ref_dsytri ref_dtrtri ref_dlauum (fun _ => 0) 1 false 2 (out_sets fall) scale 2 0 false 2 200 (-10) 10 (fun _ _ => 0%nat)
    (fun _ => case_found mem) (fun _ _ => RecFound mem mem mem mem mem) 13); [lia|lia|rewrite L1; vm_compute; lia|apply out_order; lia].
Qed.
