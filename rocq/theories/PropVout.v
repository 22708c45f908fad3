(** C83: what the reconstruction writes in the virtual mode, from the posterior sample and
    the data to the printed numbers, for all data sets.  Real arithmetic, no rounding. *)
From Coq Require Import Reals List Arith Lia Lra Permutation ClassicalChoice.
From Coquelicot Require Import Coquelicot.
From Verif Require Import CPrelude SemisepModel SemisepProofs SemisepProofs2 MatBridge MatBridge2 SemisepProofs3 PartProofs PartProofs2 KernelCalc KernelSpec KernelModel KernelGauss2 PartModel
  CovModel LikeModel PredModel PropPart PropSemisep GlsAlgebra LikeProofs PropLike PredProofs PropPred DecompProofs PropDecomp.
From Verif Require Import PropCov MixSpec PropKernel MixModel PropMix PsdCore PsdKernel PropPsd EndModel VmapModel SetsModel PropSets OutModel PropOut VoutModel.
From Verif Require EndProofs PropEnd PropVmap PropVnorm ParamModel ParamSpec RecModel RecProofs PropRec PropNorm.
Import ListNotations.
Open Scope R_scope.

(** ** The times *)
Definition earliest (lines : list (list R)) (b : R) : Prop := In b (concat lines) /\ forall x, In x (concat lines) -> b <= x.
Definition latest (lines : list (list R)) (e : R) : Prop := In e (concat lines) /\ forall x, In x (concat lines) -> x <= e.
Lemma last_in (l : list R) e : RecModel.last_ l = Ok e -> In e l.
Proof. unfold RecModel.last_, get. destruct l; [discriminate|]. destruct (nth_error _ _) eqn:E; [|discriminate]. intros H. injection H as <-. exact (nth_error_In _ _ E). Qed.
Lemma get_in (l : list R) k e : get l k = Ok e -> In e l.
Proof. unfold get. destruct (nth_error _ _) eqn:E; [|discriminate]. intros H. injection H as <-. exact (nth_error_In _ _ E). Qed.
Lemma span_exact : forall lines b e b' e', RecModel.rec_span lines b e = Ok (b', e') -> (b' = b \/ In b' (concat lines)) /\ (e' = e \/ In e' (concat lines)).
Proof.
  induction lines as [|l lines IH]; intros b e b' e'; cbn [RecModel.rec_span concat].
  - intros H. injection H as <- <-. auto.
  - destruct (get l 0) as [x| | |] eqn:G; cbn [bind]; try discriminate. destruct (RecModel.last_ l) as [y| | |] eqn:Y; cbn [bind]; try discriminate.
    intros H. apply IH in H. apply get_in in G. apply last_in in Y. destruct H as [[H1|H1] [H2|H2]].
    all: split; [rewrite ?H1; try (right; apply in_or_app; right; assumption)|rewrite ?H2; try (right; apply in_or_app; right; assumption)].
    all: try (unfold Rmin; destruct Rle_dec; [left; reflexivity|right; apply in_or_app; left; assumption]).
    all: unfold Rmax; destruct Rle_dec; [right; apply in_or_app; left; assumption|left; reflexivity].
Qed.
(** Times in order, repeated ones allowed, no empty line: every curve has the same n
    equally spaced times, from a twentieth of the range before its begin to a twentieth
    after its end.  The range is that of the data, each end moved as the user wishes,
    except that it never ends before time 0. *)
Theorem C83_grid : forall lines n low_ext upp_ext b e,
  (forall l, In l lines -> PropNorm.in_order l /\ l <> []) -> earliest lines b -> latest lines e -> b <= DBL_MAX -> (2 <= n)%nat ->
  let tb := b + low_ext in let te := Rmax e 0 + upp_ext in
  vmap_times low_ext upp_ext lines n =
    Ok (map Some (concat (repeat (map (fun k => tb - (te - tb) / 20 + INR k * (11 / 10 * (te - tb) / INR (n - 1))) (seq 0 n)) (1 + length lines)))).
Proof.
  intros lines n low upp b e H (B1 & B2) (E1 & E2) BM N tb te. unfold vmap_times.
  destruct (PropNorm.span_ok lines DBL_MAX 0 H) as (b' & e' & E & LB & LE & C). rewrite E. cbn [bind fst snd].
  destruct (span_exact _ _ _ _ _ E) as [XB XE].
  assert (HB : b' = b).
  { apply in_concat in B1. destruct B1 as (l & L1 & L2). pose proof (C l b L1 L2). destruct XB as [->|XB]; [lra|]. specialize (B2 b' XB). lra. }
  assert (HE : e' = Rmax e 0).
  { apply in_concat in E1. destruct E1 as (l & L1 & L2). pose proof (C l e L1 L2). destruct XE as [->|XE]; [rewrite Rmax_right; lra|]. specialize (E2 e' XE). rewrite Rmax_left; lra. }
  rewrite HB, HE. fold tb te. f_equal. rewrite concat_map. f_equal. rewrite map_rep, map_map. f_equal. apply map_ext. intros k.
  destruct (Nat.eqb_spec n 1); [lia|]. f_equal. rewrite minus_INR by lia. cbn [INR].
  assert (INR n - 1 <> 0) by (apply le_INR in N; cbn [INR] in N; lra). field. assumption.
Qed.
Lemma dbl_big : 2 ^ 10 <= DBL_MAX.
Proof.
  unfold DBL_MAX. assert (A : / 2 ^ 52 <= 1) by (rewrite <- Rinv_1; apply Rinv_le_contravar; [lra|apply pow_R1_Rle; lra]).
  assert (B : 2 ^ 10 <= 2 ^ 1023) by (apply Rle_pow; [lra|lia]). assert (0 < 2 ^ 10) by (apply pow_lt; lra). set (x := 2 ^ 1023) in *. set (y := / 2 ^ 52) in *. nra.
Qed.
(** Data before time 0 only: the times run on to 0 and beyond; here none lies in the range
    of the data. *)
Theorem C83_negative_times_refuted : exists lines n ts, (forall l, In l lines -> PropNorm.in_order l /\ l <> []) /\ earliest lines (-1000) /\ latest lines (-990) /\
  vmap_times 0 0 lines n = Ok (map Some ts) /\ length ts = (n * (1 + length lines))%nat /\ (6 <= n)%nat /\ (forall t, In t ts -> ~ (-1000 <= t <= -990)) /\ In 50 ts.
Proof.
  assert (O : PropNorm.in_order [-1000; -990]).
  { intros a c x y AC X Y. destruct a as [|[|[|a]]]; destruct c as [|[|[|c]]]; cbn in X, Y; try discriminate; try lia; injection X as <-; injection Y as <-; lra. }
  assert (H : forall l, In l [[-1000; -990]] -> PropNorm.in_order l /\ l <> []) by (intros l [<-|[]]; split; [exact O|discriminate]).
  assert (B : earliest [[-1000; -990]] (-1000)) by (split; [left; reflexivity|]; intros x [<-|[<-|[]]]; lra).
  assert (E : latest [[-1000; -990]] (-990)) by (split; [right; left; reflexivity|]; intros x [<-|[<-|[]]]; lra).
  exists [[-1000; -990]], 6%nat. eexists. split; [exact H|]. split; [exact B|]. split; [exact E|].
  split; [apply (C83_grid _ 6 0 0 (-1000) (-990) H B E); [pose proof dbl_big; lra|lia]|]. rewrite Rmax_right by lra.
  split; [reflexivity|]. split; [lia|]. split.
  - intros t T. cbn in T. intuition lra.
  - cbn. do 5 right. left. lra.
Qed.
Print Assumptions C83_grid.
Print Assumptions C83_negative_times_refuted.
Example C83_grid_case : exists f, vmap_times 0 0 [[0; 10]; [5; 20]] 6 = Ok (map Some (concat (repeat (map f (seq 0 6)) 3))) /\ f 0%nat = -1 /\ f 5%nat = 21.
Proof.
  eexists. split; [apply (C83_grid [[0; 10]; [5; 20]] 6 0 0 0 20)|].
  - intros l [<-|[<-|[]]]; (split; [|discriminate]); intros a c x y AC X Y; destruct a as [|[|[|a]]]; destruct c as [|[|[|c]]]; cbn in X, Y; try discriminate; try lia; injection X as <-; injection Y as <-; lra.
  - split; [left; reflexivity|]. cbn. intros x H. intuition lra.
  - split; [cbn; tauto|]. cbn. intros x H. intuition lra.
  - pose proof dbl_big. lra.
  - lia.
  - rewrite Rmax_left by lra. cbn. split; lra.
Qed.

(** ** What is written *)
(** y' is y shifted and stretched by a positive factor to mean 0 and root mean square s *)
Definition standardized (n : nat) (s : R) (y y' : nat -> R) : Prop :=
  sumn n y' = 0 /\ sumn n (fun k => y' k ^ 2) = INR n * s ^ 2 /\ exists a b, 0 < b /\ forall k, (k < n)%nat -> y' k = b * (y k - a).
Section Spec.
Variable ds : nat -> lcset.
Variable scale : nat -> nat -> R.
Variable nq : nat.
Variable nd_rec : nat.
Variables low_ext upp_ext : R.
Variable ps : list (list R).
(** D i row t v: with the parameters of the row, v is the prediction of the driving curve
    of set i for time t; P i row j t v e: v is the prediction of line j, e its error;
    Q i row y: y are the trend coefficients of the lines *)
Variable D : nat -> list R -> R -> R -> Prop.
Variable P : nat -> list R -> nat -> R -> R -> R -> Prop.
Variable Q : nat -> list R -> arr -> Prop.
(** number of times: at most nd_rec and at most three times as many as the longest line
    has points *)
Definition vcount (i : nat) : nat := Nat.min (3 * list_max (map (s_nline (ds i)) (seq 0 (s_nl (ds i))))) nd_rec.
(** equally spaced times, reaching beyond all data of the set *)
Definition covering (i : nat) (first step : R) : Prop :=
  0 < step /\ forall j m, (j < s_nl (ds i))%nat -> (m < s_nline (ds i) j)%nat ->
    first < s_tline (ds i) j m + low_ext /\ s_tline (ds i) j m + upp_ext < first + INR (vcount i - 1) * step.
(** Every curve is written at the same times.  The driving curve of each row is brought to
    mean 0 and standard deviation 0.1; written is the mean over the rows with the spread
    over the rows as error.  A point of a line is the mean of the predictions over the rows;
    its error is the spread of the predictions or, if larger, the largest single error.  The
    trend of the driving curve is 0 without error; the trend coefficients of the lines are
    means with spreads.  All in the units of the data. *)
Definition vwritten (i : nat) (out : list (list (R * (R * R))) * list (R * R)) : Prop :=
  let d := ds i in
  let n := vcount i in
  exists first step, covering i first step /\
    let t := fun k => first + INR k * step in
    length (fst out) = (1 + s_nl d)%nat /\
    (exists curve, nth_error (fst out) 0 = Some curve /\ length curve = n /\ exists ys : list (nat -> R),
       Forall2 (fun row y => exists v, (forall k, (k < n)%nat -> D i row (t k) (v k)) /\ standardized n (1 / 10) v y) ps ys /\
       forall k, (k < n)%nat -> let vs := map (fun y => y k) ys in
         nth_error curve k = Some (t k, (PropRec.mean_of vs * scale i 0, sqrt (PropRec.variance_of vs) * scale i 0))) /\
    (forall j, (j < s_nl d)%nat -> exists curve, nth_error (fst out) (S j) = Some curve /\ length curve = n /\
       forall k, (k < n)%nat -> exists ves : list (R * R),
         let vs := map fst ves in
         Forall2 (fun row ve => P i row j (t k) (fst ve) (snd ve)) ps ves /\
         nth_error curve k = Some (t k, (PropRec.mean_of vs * scale i (S j),
            Rmax (sqrt (PropRec.variance_of vs)) (PropRec.largest (map snd ves)) * scale i (S j)))) /\
    length (snd out) = ((1 + s_nl d) * nq)%nat /\
    (forall k, (k < nq)%nat -> nth_error (snd out) k = Some (0, 0)) /\
    exists ys : list arr, Forall2 (Q i) ps ys /\
      forall j k, (j < s_nl d)%nat -> (k < nq)%nat ->
        let vs := map (fun y : arr => y (j * nq + k)%nat) ys in
        nth_error (snd out) (S j * nq + k)%nat = Some (PropRec.mean_of vs * scale i (S j), sqrt (PropRec.variance_of vs) * scale i (S j)).
(** the predicted driving curve of some row has the same value at all times *)
Definition flat (i : nat) : Prop :=
  exists first step row v, covering i first step /\ In row ps /\ forall k, (k < vcount i)%nat -> D i row (first + INR k * step) v.
(** times of every line in order (they may repeat), none empty, all doubles; the extensions
    of the range leave some time *)
Definition lines_in_order (i : nat) : Prop :=
  let x := s_tline (ds i) in
  (forall j, (j < s_nl (ds i))%nat -> (1 <= s_nline (ds i) j)%nat /\ (forall a b, (a < b < s_nline (ds i) j)%nat -> x j a <= x j b) /\
     forall a, (a < s_nline (ds i) j)%nat -> x j a <= DBL_MAX) /\
  exists j m j' m', (j < s_nl (ds i))%nat /\ (m < s_nline (ds i) j)%nat /\ (j' < s_nl (ds i))%nat /\ (m' < s_nline (ds i) j')%nat
    /\ x j m + low_ext < x j' m' + upp_ext.
End Spec.

(** ** Lists *)
Lemma count_fold nd (f : nat -> nat) (l : list nat) a : (a <= nd)%nat -> fold_left (fun n j => Nat.max n (Nat.min (f j * 3) nd)) l a = Nat.max a (Nat.min (3 * list_max (map f l)) nd).
Proof.
  revert a. induction l as [|j l IH]; intros a A; cbn [fold_left map list_max fold_right]; [lia|].
  rewrite IH by lia. unfold list_max. lia.
Qed.
Lemma vpoints_count ds nd i : vpoints ds nd i = vcount ds nd i.
Proof. unfold vpoints, vcount. rewrite count_fold by lia. lia. Qed.
Lemma extreme (l : list R) : l <> [] -> (exists b, In b l /\ forall x, In x l -> b <= x) /\ exists e, In e l /\ forall x, In x l -> x <= e.
Proof.
  induction l as [|x l IH]; [congruence|intros _]. destruct l as [|y l].
  - split; exists x; (split; [left; reflexivity|]); intros z [<-|[]]; lra.
  - destruct IH as [(b & B1 & B2) (e & E1 & E2)]; [discriminate|]. split.
    + destruct (Rle_dec x b) as [L|L].
      * exists x. split; [left; reflexivity|]. intros z [<-|Z]; [lra|]. specialize (B2 z Z). lra.
      * exists b. split; [right; exact B1|]. intros z [<-|Z]; [lra|]. exact (B2 z Z).
    + destruct (Rle_dec e x) as [L|L].
      * exists x. split; [left; reflexivity|]. intros z [<-|Z]; [lra|]. specialize (E2 z Z). lra.
      * exists e. split; [right; exact E1|]. intros z [<-|Z]; [lra|]. exact (E2 z Z).
Qed.
Lemma vrows_all (ps : list (list R)) np : List.Forall (fun r => length r = np) ps -> vrows (length ps) np (concat ps) = ps.
Proof.
  intros F. unfold vrows. transitivity (map (fun m => nth m ps []) (seq 0 (length ps))).
  - apply map_ext_in. intros m M. apply in_seq in M. exact (row_concat ps np m F ltac:(lia)).
  - clear F. induction ps as [|r ps IH]; [reflexivity|]. cbn [length seq map nth]. f_equal. rewrite <- seq_shift, map_map. exact IH.
Qed.
Lemma has_none_false {A B} (f : A -> option B) l : has_none f l = false -> forall x, In x l -> exists y, f x = Some y.
Proof.
  unfold has_none. intros H x X. destruct (f x) as [y|] eqn:E; [exists y; reflexivity|].
  assert (T : existsb (fun x => match f x with None => true | Some _ => false end) l = true) by (apply existsb_exists; exists x; rewrite E; auto). congruence.
Qed.
Lemma has_none_true {A B} (f : A -> option B) l : has_none f l = true -> exists x, In x l /\ f x = None.
Proof. unfold has_none. intros H. apply existsb_exists in H. destruct H as (x & X & E). exists x. destruct (f x); [discriminate|auto]. Qed.
Lemma zeros_mean {A} (l : list A) : PropRec.mean_of (map (fun _ => 0) l) = 0.
Proof.
  unfold PropRec.mean_of. replace (PropRec.Rsum (map (fun _ => 0) l)) with 0; [unfold Rdiv; ring|].
  unfold PropRec.Rsum. induction l as [|x l IH]; [reflexivity|]. cbn [map fold_right]. rewrite <- IH. ring.
Qed.
Lemma zeros_variance {A} (l : list A) : PropRec.variance_of (map (fun _ => 0) l) = 0.
Proof.
  unfold PropRec.variance_of. rewrite zeros_mean, map_map. replace (PropRec.Rsum (map (fun _ : A => (0 - 0) ^ 2) l)) with 0; [unfold Rdiv; ring|].
  unfold PropRec.Rsum. induction l as [|x l IH]; [reflexivity|]. cbn [map fold_right]. rewrite <- IH. ring.
Qed.

(** ** One set *)
Section Generic.
Variable dgesol : nat -> nat -> arr -> arr -> arr.
Variable dget : nat -> arr -> arr.
Variable log_erfc : R -> R.
Variable type_tf : nat.
Variable flag : bool.
Variable nset : nat.
Variable ds : nat -> lcset.
Variable scale : nat -> nat -> R.
Variable ng : nat.
Variable uniform : nat.
Variable uniform_var : bool.
Variable nq : nat.
Variable nd_rec : nat.
Variables low_ext upp_ext : R.
Variable junk : nat -> nat -> nat.
Variable fd : list R -> nat -> found.
Variable rd : list R -> nat -> rec_found.
Variable ytail : list R -> nat -> arr.
Variable ps : list (list R).
Variable D : nat -> list R -> R -> R -> Prop.
Variable P : nat -> list R -> nat -> R -> R -> R -> Prop.
Variable Q : nat -> list R -> arr -> Prop.
Notation np := (ParamModel.num_params nset (nlset ds) ng uniform uniform_var).
Notation one := (vrec_one dgesol dget log_erfc type_tf flag nset ds ng uniform uniform_var nq nd_rec junk fd rd ytail).
Notation vrow' := (vrow dgesol dget log_erfc type_tf flag nset ds ng uniform uniform_var nq nd_rec junk fd rd ytail).
Notation pts := (vcount ds nd_rec).
Hypothesis HS : List.Forall (fun r => length r = np) ps.
Hypothesis HN : (1 <= length ps)%nat.
Hypothesis HD : (2 <= nd_rec)%nat.
Hypothesis HP : forall i row tall, (i < nset)%nat -> In row ps ->
  let o := one row tall i in
  Q i row (fun k => rec_yq o (nq + k)%nat) /\ (forall k, (k < pts i)%nat -> D i row (tall k) (rec_f o k)) /\
  forall j k, (j < s_nl (ds i))%nat -> (k < pts i)%nat ->
    P i row j (tall (S j * pts i + k)%nat) (rec_f o (S j * pts i + k)%nat) (rec_fe o (S j * pts i + k)%nat).

Lemma yq_zero row tall i k : (k < nq)%nat -> rec_yq (one row tall i) k = 0.
Proof.
  intros K. unfold vrec_one, rec_vmap, rec_vmap_set. cbv zeta. cbn [rec_yq].
  set (body := fun (a : nat) (q : arr) => upd q (a + nq) _).
  pose proof (for_inv arr (fun _ q => q k = 0) 0 (nq * s_nl (ds i)) body (yq_before nq ytail row i)) as G. cbv beta in G. apply G.
  - unfold yq_before. destruct (Nat.ltb_spec k nq); [reflexivity|lia].
  - intros a q _ E. unfold body, upd. destruct (Nat.eqb_spec k (a + nq)); [lia|exact E].
Qed.
Lemma vtimes_ok i : lines_in_order ds low_ext upp_ext i -> (2 <= pts i)%nat /\ exists first step, covering ds nd_rec low_ext upp_ext i first step /\
  vset_times ds nd_rec low_ext upp_ext i = Ok (Some (concat (repeat (map (fun k => first + INR k * step) (seq 0 (pts i))) (1 + s_nl (ds i))))).
Proof.
  intros (O & j0 & m0 & j1 & m1 & J0 & M0 & J1 & M1 & XY). set (d := ds i) in *.
  assert (N2 : (2 <= pts i)%nat).
  { unfold vcount. fold d. assert (1 <= list_max (map (s_nline d) (seq 0 (s_nl d))))%nat; [|lia].
    pose proof (proj1 (list_max_le (map (s_nline d) (seq 0 (s_nl d))) _) (Nat.le_refl _)) as F. rewrite Forall_forall in F.
    specialize (F (s_nline d j0) ltac:(apply in_map, in_seq; lia)). lia. }
  split; [exact N2|]. set (lines := map (fun j => map (s_tline d j) (seq 0 (s_nline d j))) (seq 0 (s_nl d))).
  assert (IN : forall j m, (j < s_nl d)%nat -> (m < s_nline d j)%nat -> In (s_tline d j m) (concat lines)).
  { intros j m J M. apply in_concat. exists (map (s_tline d j) (seq 0 (s_nline d j))). split; [unfold lines; apply in_map_iff; exists j; split; [reflexivity|apply in_seq; lia]|].
    apply in_map, in_seq. lia. }
  assert (H : forall l, In l lines -> PropNorm.in_order l /\ l <> []).
  { intros l IL. apply in_map_iff in IL. destruct IL as (j & <- & J). apply in_seq in J. destruct (O j ltac:(lia)) as (L1 & L2 & _).
    split; [apply in_order_map; exact L2|]. destruct (s_nline d j); [lia|discriminate]. }
  destruct (extreme (concat lines)) as [(b & B) (e & E)]; [intros X; specialize (IN j0 m0 J0 M0); rewrite X in IN; exact IN|].
  assert (BM : b <= DBL_MAX).
  { destruct B as [B _]. apply in_concat in B. destruct B as (l & L1 & L2). apply in_map_iff in L1. destruct L1 as (j & <- & J). apply in_seq in J.
    apply in_map_iff in L2. destruct L2 as (m & <- & M). apply in_seq in M. destruct (O j ltac:(lia)) as (_ & _ & DB). apply DB. lia. }
  pose proof (C83_grid lines (pts i) low_ext upp_ext b e H B E BM N2) as G. cbv zeta in G.
  set (tb := b + low_ext) in *. set (te := Rmax e 0 + upp_ext) in *.
  assert (TBE : tb < te).
  { destruct B as [_ B], E as [_ E]. pose proof (B _ (IN j0 m0 J0 M0)). pose proof (E _ (IN j1 m1 J1 M1)). pose proof (Rmax_l e 0). unfold tb, te. lra. }
  assert (IP : 0 < INR (pts i - 1)) by (apply lt_0_INR; lia).
  exists (tb - (te - tb) / 20), (11 / 10 * (te - tb) / INR (pts i - 1)). split.
  - split; [apply Rdiv_lt_0_compat; lra|]. intros j m J M. specialize (IN j m J M). destruct B as [_ B], E as [_ E]. specialize (B _ IN). specialize (E _ IN).
    replace (INR (pts i - 1) * (11 / 10 * (te - tb) / INR (pts i - 1))) with (11 / 10 * (te - tb)) by (field; lra).
    pose proof (Rmax_l e 0) as RM. fold d. unfold tb, te in *. split; lra.
  - unfold vset_times. rewrite vpoints_count. fold d. fold lines. rewrite G. cbn [bind]. rewrite numbers_map. unfold lines. rewrite map_length, seq_length. reflexivity.
Qed.
Lemma vset_out jk T order i : (i < nset)%nat -> lines_in_order ds low_ext upp_ext i -> (1 <= T)%nat -> Permutation order (seq 0 T) ->
  exists r, voutput_set dgesol dget log_erfc type_tf flag nset ds scale ng uniform uniform_var nq nd_rec low_ext upp_ext junk fd rd ytail jk (length ps) T order (concat ps) i = Ok r
    /\ match r with Some out => vwritten ds scale nq nd_rec low_ext upp_ext ps D P Q i out | None => flat ds nd_rec low_ext upp_ext ps D i end.
Proof.
  intros I IO HT HO. destruct (vtimes_ok i IO) as (N2 & first & step & CV & ET). unfold voutput_set. rewrite ET. cbn [bind]. rewrite vpoints_count.
  set (g := map (fun k => first + INR k * step) (seq 0 (pts i))) in *.
  assert (LG : length g = pts i) by (unfold g; rewrite map_length, seq_length; reflexivity).
  set (tall := fun a => nth a (concat (repeat g (1 + s_nl (ds i)))) 0).
  set (rec := fun row => match vrow' tall i row with Some r => r | None => RecModel.Recon (fun _ => 0) (fun _ => 0) (fun _ => 0) end).
  assert (TA : forall c k, (c < 1 + s_nl (ds i))%nat -> (k < pts i)%nat -> tall (c * pts i + k)%nat = first + INR k * step).
  { intros c k C K. unfold tall. rewrite <- LG at 1. rewrite nth_concat_repeat by (rewrite ?LG; assumption). unfold g. rewrite nth_map_seq by exact K. reflexivity. }
  set (nall := repeat (pts i) (1 + s_nl (ds i))).
  rewrite (PropRec.reduced_ok jk (length ps) np T order nall nq rec (concat ps) HT (length_concat ps np HS) HO). cbn [bind].
  set (s := PropRec.reduced_sums (length ps) np T order nall nq rec (concat ps)).
  rewrite (vrows_all ps np HS). destruct (has_none (vrow' tall i) ps) eqn:HNN.
  { exists None. split; [reflexivity|]. apply has_none_true in HNN. destruct HNN as (row & RI & E). unfold vrow in E. rewrite vpoints_count in E.
    destruct (light_curve_normalize _ _ _ _) as [[y ye]|] eqn:LN; [discriminate|]. apply PropVnorm.C73_fails in LN; [|lra]. destruct LN as [LN|LN]; [lia|].
    exists first, step, row, (rec_f (one row tall i) 0%nat). split; [exact CV|]. split; [exact RI|]. intros k K.
    rewrite (LN 0%nat k ltac:(lia) K). destruct (HP i row tall I RI) as (_ & H & _). specialize (H k K).
    pose proof (TA 0%nat k ltac:(lia) K) as TK. cbn [Nat.mul Nat.add] in TK. rewrite TK in H. exact H. }
  assert (RS : forall row, In row ps -> exists y ye, vrow' tall i row = Some (RecModel.Recon y ye (rec_yq (one row tall i))) /\
    PropVnorm.normalized (pts i) (1 / 10) (rec_f (one row tall i)) (rec_fe (one row tall i)) y ye).
  { intros row RI. destruct (has_none_false _ _ HNN row RI) as (r & E). unfold vrow in E |- *. rewrite vpoints_count in *.
    destruct (light_curve_normalize _ _ _ _) as [[y ye]|] eqn:LN; [|discriminate]. exists y, ye. split; [reflexivity|]. apply PropVnorm.C73_normalized; [lra|exact LN]. }
  eexists. split; [reflexivity|]. exists first, step. split; [exact CV|]. cbv zeta. cbn [fst snd].
  assert (PR : forall c, (c < 1 + s_nl (ds i))%nat -> firstn (pts i) (skipn (c * pts i) (concat (repeat g (1 + s_nl (ds i))))) = g) by (intros c C; rewrite <- LG; apply part_repeat, C).
  assert (TOT : RecProofs.total nall = ((1 + s_nl (ds i)) * pts i)%nat).
  { unfold RecProofs.total, nall. rewrite <- (firstn_all (repeat _ _)), repeat_length. apply sum_repeat. lia. }
  assert (FX : forall k, (k < RecProofs.total nall)%nat -> _) by exact (PropRec.out_flux (length ps) np T order nall nq rec (concat ps) HT HN HO). fold s in FX.
  assert (TR : forall k, (k < nq * length nall)%nat -> _) by exact (PropRec.out_trend (length ps) np T order nall nq rec (concat ps) HT HN HO). fold s in TR.
  unfold nall in TR. rewrite repeat_length in TR.
  assert (CE : forall V (value : RecModel.recon R -> nat -> V) k, PropRec.column value rec (length ps) np (concat ps) k = map (fun r => value (rec r) k) ps)
    by (intros; apply column_rows; exact HS).
  split; [rewrite map_length, seq_length; reflexivity|]. split; [|split; [|split; [|split]]].
  - eexists. split; [rewrite nth_error_map_seq by lia; reflexivity|]. unfold curve_rows. rewrite PR by lia. change (map (scale i) (seq 0 (1 + s_nl (ds i)))) with (scale i 0%nat :: map (scale i) (seq 1 (s_nl (ds i)))). cbn [vcurves_out nth].
    split; [rewrite combine_length, LG, map_length, seq_length; lia|].
    exists (map (fun row => RecModel.rf (rec row)) ps). split.
    + apply forall2_map. intros row RI. exists (rec_f (one row tall i)). destruct (RS row RI) as (y & ye & E & N). split.
      * intros k K. destruct (HP i row tall I RI) as (_ & H & _). specialize (H k K). pose proof (TA 0%nat k ltac:(lia) K) as TK. cbn [Nat.mul Nat.add] in TK. rewrite TK in H. exact H.
      * unfold rec. rewrite E. cbn [RecModel.rf]. destruct N as (A1 & A2 & (a & b & B & AB) & _). split; [exact A1|]. split; [exact A2|]. exists a, b. split; [exact B|]. intros k K. apply AB, K.
    + intros k K. apply nth_error_combine; [unfold g; rewrite nth_error_map_seq by exact K; reflexivity|]. rewrite nth_error_map_seq by exact K.
      destruct (FX k ltac:(rewrite TOT; nia)) as (F1 & _ & F3 & _). rewrite F1, F3, !CE, map_map. reflexivity.
  - intros j J. eexists. split; [rewrite nth_error_map_seq by lia; reflexivity|]. unfold curve_rows. rewrite PR by lia. change (map (scale i) (seq 0 (1 + s_nl (ds i)))) with (scale i 0%nat :: map (scale i) (seq 1 (s_nl (ds i)))). cbn [vcurves_out nth].
    assert (RC : nth_error (repeat (pts i) (s_nl (ds i))) j = Some (pts i)) by (rewrite (nth_error_nth' _ (pts i)) by (rewrite repeat_length; exact J); rewrite nth_repeat; reflexivity).
    assert (SC : nth_error (map (scale i) (seq 1 (s_nl (ds i)))) j = Some (scale i (S j))).
    { rewrite nth_error_map, (nth_error_nth' _ 0%nat) by (rewrite seq_length; exact J). rewrite seq_nth by exact J. reflexivity. }
    destruct (PropRec.nth_curve_length (length ps) s _ _ (pts i) j (pts i) (scale i (S j)) RC SC) as (cur & C1 & C2).
    rewrite (nth_error_nth _ _ [] C1). split; [rewrite combine_length, LG, C2; lia|]. intros k K.
    destruct (PropRec.nth_curves (length ps) s _ _ (pts i) j (pts i) (scale i (S j)) k RC SC K) as (cur' & C1' & _ & V). rewrite C1 in C1'. injection C1' as <-.
    rewrite sum_repeat in V by lia. replace (pts i + j * pts i + k)%nat with (S j * pts i + k)%nat in V by lia.
    destruct (FX (S j * pts i + k)%nat ltac:(rewrite TOT; nia)) as (F1 & _ & F3 & F4). rewrite F1, F3, F4, !CE in V.
    exists (map (fun row => (RecModel.rf (rec row) (S j * pts i + k)%nat, RecModel.rfe (rec row) (S j * pts i + k)%nat)) ps). rewrite !map_map. cbn [fst snd]. split.
    + apply forall2_map. intros row RI. cbn [fst snd]. destruct (RS row RI) as (y & ye & E & N). unfold rec. rewrite E. cbn [RecModel.rf RecModel.rfe].
      destruct N as (_ & _ & _ & N). destruct (N (S j * pts i + k)%nat ltac:(nia)) as [-> ->]. destruct (HP i row tall I RI) as (_ & _ & H). specialize (H j k J K).
      rewrite TA in H by (try lia; exact K). exact H.
    + apply nth_error_combine; [unfold g; rewrite nth_error_map_seq by exact K; reflexivity|exact V].
  - rewrite PropRec.trend_length, map_length, seq_length. reflexivity.
  - intros k K. pose proof (PropRec.nth_trend (length ps) nq s (map (scale i) (seq 0 (1 + s_nl (ds i)))) 0 0 (scale i 0%nat) k eq_refl K) as V. change (0 * nq + k)%nat with k in V. rewrite V. change ((0 + 0) * nq + k)%nat with k.
    destruct (TR k ltac:(nia)) as (F1 & _ & F3). rewrite F1, F3, CE.
    replace (map (fun r => RecModel.ry (rec r) k) ps) with (map (fun _ : list R => 0) ps).
    + rewrite zeros_mean, zeros_variance, sqrt_0, !Rmult_0_l. reflexivity.
    + apply map_ext_in. intros row RI. destruct (RS row RI) as (y & ye & E & _). unfold rec. rewrite E. cbn [RecModel.ry]. symmetry. apply yq_zero, K.
  - exists (map (fun row k => rec_yq (one row tall i) (nq + k)%nat) ps). split.
    + apply forall2_map. intros row RI. exact (proj1 (HP i row tall I RI)).
    + intros j k J K. rewrite !map_map.
      assert (SC : nth_error (map (scale i) (seq 0 (1 + s_nl (ds i)))) (S j) = Some (scale i (S j))) by (apply nth_error_map_seq; lia).
      pose proof (PropRec.nth_trend (length ps) nq s (map (scale i) (seq 0 (1 + s_nl (ds i)))) 0 (S j) (scale i (S j)) k SC K) as V.
      change (0 + S j)%nat with (S j) in V. rewrite V.
      destruct (TR (S j * nq + k)%nat ltac:(nia)) as (F1 & _ & F3). rewrite F1, F3, CE.
      replace (map (fun r => RecModel.ry (rec r) (S j * nq + k)%nat) ps) with (map (fun row => rec_yq (one row tall i) (nq + (j * nq + k))%nat) ps); [reflexivity|].
      apply map_ext_in. intros row RI. destruct (RS row RI) as (y & ye & E & _). unfold rec. rewrite E. cbn [RecModel.ry]. f_equal. lia.
Qed.
Lemma vall_out jk T order : (1 <= T)%nat -> (forall i, (i < nset)%nat -> lines_in_order ds low_ext upp_ext i /\ Permutation (order i) (seq 0 T)) ->
  exists outs, output_reconstruction_parallel_vmap dgesol dget log_erfc type_tf flag nset ds scale ng uniform uniform_var nq nd_rec low_ext upp_ext junk fd rd ytail jk (length ps) T order (concat ps) = Ok outs
    /\ length outs = nset /\ forall i, (i < nset)%nat -> exists r, nth_error outs i = Some r /\
      match r with Some out => vwritten ds scale nq nd_rec low_ext upp_ext ps D P Q i out | None => flat ds nd_rec low_ext upp_ext ps D i end.
Proof. intros HT H. unfold output_reconstruction_parallel_vmap. apply (sequence_all nd_rec ps HN HD). intros i I. destruct (H i I) as [IO HO]. exact (vset_out jk T (order i) i I IO HT HO). Qed.
End Generic.

(** ** The program *)
Lemma target_ext psi psi' f f' taud s xs times t u : (forall j, (S j < length xs)%nat -> psi j = psi' j) -> f = f' ->
  target_covariance f psi taud s xs times t u -> target_covariance f' psi' taud s xs times t u.
Proof.
  intros E <- H b B. destruct (H b B) as (d & m & v & L1 & U & C). exists d, m, v. split; [exact L1|]. split; [exact U|].
  pose proof (proj1 (locate_len _ _ _ _ L1)) as LN. destruct f, d as [|d]; rewrite <- ?E by exact LN; exact C.
Qed.
Section Rows.
Variable dgesol : nat -> nat -> arr -> arr -> arr.
Variable dget : nat -> arr -> arr.
Variable log_erfc : R -> R.
Variable type_tf : nat.
Variable flag : bool.
Variable nset : nat.
Variable ds : nat -> lcset.
Variable scale : nat -> nat -> R.
Variable ng : nat.
Variable uniform : nat.
Variable uniform_var : bool.
Variable nq : nat.
Variable nd_rec : nat.
Variables low_ext upp_ext : R.
Variable junk : nat -> nat -> nat.
Variable fd : list R -> nat -> found.
Variable rd : list R -> nat -> rec_found.
Variable ytail : list R -> nat -> arr.
Notation li := (line_index nset ds ng uniform uniform_var junk).
Notation ci := (con_index uniform_var).
Notation par := row_values.
Notation np := (ParamModel.num_params nset (nlset ds) ng uniform uniform_var).
Notation psi_g := (fun row i j => response (PropCov.shape_of type_tf) ng (component nset ds ng uniform uniform_var (par row) (decode flag) i j)).

(** One line is enough.  No total error is zero; every line has at least as many different
    times as trend coefficients. *)
Definition vset_ok (pm : arr) (i : nat) : Prop :=
  (1 <= nq)%nat /\ (1 <= s_nl (ds i))%nat
  /\ (forall j m, (j < s_nl (ds i))%nat -> (m < s_nline (ds i) j)%nat -> 0 < set_error2 nset ds ng uniform uniform_var pm i (S j) m)
  /\ (forall j, (j < s_nl (ds i))%nat -> enough_times nq (s_nline (ds i) j) (s_tline (ds i) j)).
(** the posterior sample; covariance matrix of the data of a set for a row, its inverse,
    the trends of the lines *)
Variable ps : list (list R).
Variables SS Si L : nat -> list R -> nat -> nat -> R.
Section Claim.
Variable psi : list R -> nat -> nat -> R -> R.
Notation sizes i := (0%nat :: map (s_nline (ds i)) (seq 0 (s_nl (ds i)))).
Notation times i := (fun c m => match c with O => 0 | S j => s_tline (ds i) j m end).
(** v is the best linear unbiased prediction of the driving curve, which has no trend *)
Definition best_driving (i : nat) (row : list R) (t v : R) : Prop :=
  exists u V, target_covariance None (psi row i) (set_taud uniform_var (par row) i) (lines_sigma uniform_var (par row) i) (sizes i) (times i) t u
    /\ target_variance None (set_taud uniform_var (par row) i) (lines_sigma uniform_var (par row) i) t V
    /\ best_value (lines_points ds i) (nq * s_nl (ds i)) (SS i row) (L i row) u V (fun _ => 0) (s_fall (ds i)) v.
(** v is the best linear unbiased prediction of line j, e its standard error *)
Definition best_line (i : nat) (row : list R) (j : nat) (t v e : R) : Prop :=
  exists u V, target_covariance (Some (psi row i j)) (psi row i) (set_taud uniform_var (par row) i) (lines_sigma uniform_var (par row) i) (sizes i) (times i) t u
    /\ target_variance (Some (psi row i j)) (set_taud uniform_var (par row) i) (lines_sigma uniform_var (par row) i) t V
    /\ best_prediction (lines_points ds i) (nq * s_nl (ds i)) (SS i row) (L i row) u V (fun w => trend_at nq w j t) (s_fall (ds i)) v e.
Definition line_trend (i : nat) (row : list R) (y : arr) : Prop :=
  least_squares (lines_points ds i) (nq * s_nl (ds i)) (Si i row) (L i row) (s_fall (ds i)) y.
(** for every set the files are as described, or NaN is written and the driving curve of
    some row is flat *)
Definition all_vwritten (outs : list (option (list (list (R * (R * R))) * list (R * R)))) : Prop :=
  length outs = nset /\ forall i, (i < nset)%nat -> exists r, nth_error outs i = Some r /\
    match r with
    | Some out => vwritten ds scale nq nd_rec low_ext upp_ext ps best_driving best_line line_trend i out
    | None => flat ds nd_rec low_ext upp_ext ps best_driving i
    end.
End Claim.
Theorem C83_virtual jk T order : dgesol_spec dgesol -> dget_spec dget ->
  List.Forall (fun r => length r = np) ps -> (1 <= length ps)%nat -> (2 <= nd_rec)%nat -> (1 <= T)%nat ->
  (forall i, (i < nset)%nat -> lines_in_order ds low_ext upp_ext i /\ Permutation (order i) (seq 0 T) /\ forall row, In row ps ->
     vset_ok (par row) i /\ lines_only_described nset ds ng uniform uniform_var nq (par row) (psi_g row) i (SS i row) (Si i row) (L i row) /\
     set_good ds ng uniform_var (par row) log_erfc type_tf (component nset ds ng uniform uniform_var (par row) (decode flag)) i) ->
  exists outs, output_reconstruction_parallel_vmap dgesol dget log_erfc type_tf flag nset ds scale ng uniform uniform_var nq nd_rec low_ext upp_ext junk fd rd ytail
      jk (length ps) T order (concat ps) = Ok outs /\ all_vwritten psi_g outs.
Proof.
  intros DG DI HS HN HD HT H. apply vall_out; auto; [|intros i I; split; apply (H i I)].
  intros i row tall I RI. cbn zeta. destruct (H i I) as (_ & _ & HR). destruct (HR row RI) as ((NQ & NL & ER & ET) & DS & G). set (d := ds i) in *. set (pm := par row) in *.
  assert (LO : PropVmap.lines_ok (s_nl d) (s_nline d) (s_tline d) (s_fel d) (s_eml d) nq pm li i).
  { split; [exact NQ|]. split; [|exact ET]. intros j m J M. unfold d. rewrite v_err by (try exact I; fold d; lia). apply ER; assumption. }
  set (o := vrec_one dgesol dget log_erfc type_tf flag nset ds ng uniform uniform_var nq nd_rec junk fd rd ytail row tall i).
  assert (BL : PropVmap.best_lines (s_nl d) (s_nline d) (s_tline d) (s_fall d) nq pm ci li i (fun _ => vpoints ds nd_rec i) tall type_tf flag ng (SS i row) (Si i row) (L i row) o)
    by exact (PropVmap.C72_light_curves (s_nl d) (s_nline d) (s_tline d) (s_fel d) (s_eml d) (s_fall d) nq pm ci li i
      (f_mem (fd row i)) (f_PS (fd row i)) (f_L (fd row i)) (fun _ => vpoints ds nd_rec i) tall (r_US (rd row i)) (r_AS (rd row i)) (r_L (rd row i)) (r_PE (rd row i)) (yq_before nq ytail row i)
      dgesol dget log_erfc type_tf flag ng (v_good log_erfc type_tf flag nset ds ng uniform uniform_var junk pm i I G) _ _ _ LO NL DG DI
      (v_to type_tf flag nset ds ng uniform uniform_var nq junk pm i I _ _ _ DS)).
  destruct BL as [B1 B2].
  assert (PE : forall j, (S j < length (0%nat :: map (s_nline d) (seq 0 (s_nl d))))%nat ->
    response (PropCov.shape_of type_tf) ng (KernelSpec.stored (decode flag) pm (li i j)) = psi_g row i j).
  { intros j J. rewrite EndProofs.len_sizes in J. apply (v_psi type_tf flag nset ds ng uniform uniform_var junk pm i I). fold d. lia. }
  split; [exact B1|]. split.
  - intros k K. destruct (B2 0%nat k ltac:(lia) ltac:(rewrite vpoints_count; exact K)) as (u & V & U1 & V1 & BV & _). cbn [total Nat.add] in U1, V1, BV.
    exists u, V. rewrite (v_taud nset ds ng uniform uniform_var pm i I), (v_sigma uniform_var pm i) in *.
    split; [exact (target_ext _ _ _ _ _ _ _ _ _ _ PE eq_refl U1)|]. split; [exact V1|exact BV].
  - intros j k J K. destruct (B2 (S j) k ltac:(lia) ltac:(rewrite vpoints_count; exact K)) as (u & V & U1 & V1 & _ & BP). cbn beta iota in BP. rewrite total_const, vpoints_count in U1, V1, BP.
    exists u, V. rewrite (v_taud nset ds ng uniform uniform_var pm i I), (v_sigma uniform_var pm i) in *.
    assert (EJ : PropEnd.curve_of (fun j => response (PropCov.shape_of type_tf) ng (KernelSpec.stored (decode flag) pm (li i j))) (S j) = Some (psi_g row i j)).
    { cbn [PropEnd.curve_of]. f_equal. apply PE. rewrite EndProofs.len_sizes. lia. }
    split; [exact (target_ext _ _ _ _ _ _ _ _ _ _ PE EJ U1)|]. rewrite EJ in V1. split; [exact V1|exact BP].
Qed.
(** Data that lie on their trends exactly: the predicted driving curve is 0 throughout. *)
Lemma driving_zero psi i row t v w : trend_design nq (s_nl (ds i)) (s_nline (ds i)) (s_tline (ds i)) (L i row) ->
  (forall j k, (j < s_nl (ds i))%nat -> (k < s_nline (ds i) j)%nat -> s_fall (ds i) (total (s_nline (ds i)) j + k)%nat = trend_at nq w j (s_tline (ds i) j k)) ->
  best_driving psi i row t v -> v = 0.
Proof.
  intros TD F (u & V & _ & _ & x & U & E & _). rewrite E. rewrite <- (U w). apply sumn_ext. intros a A.
  assert (G : forall n a, (a < total (s_nline (ds i)) n)%nat -> exists j k, (j < n)%nat /\ (k < s_nline (ds i) j)%nat /\ a = (total (s_nline (ds i)) j + k)%nat).
  { clear. induction n as [|n IH]; intros a A; cbn [total] in A; [lia|]. destruct (Nat.lt_ge_cases a (total (s_nline (ds i)) n)) as [C|C].
    - destruct (IH a C) as (j & k & J & K & E). exists j, k. auto.
    - exists n, (a - total (s_nline (ds i)) n)%nat. lia. }
  destruct (G _ a A) as (j & k & J & K & ->). rewrite F by assumption. rewrite TD by assumption. reflexivity.
Qed.
Lemma standardized_zero n s y y' : (1 <= n)%nat -> 0 < s -> (forall k, (k < n)%nat -> y k = 0) -> ~ standardized n s y y'.
Proof.
  intros N S0 Z (M & V & a & b & B & H).
  assert (Y : forall k, (k < n)%nat -> y' k = - (b * a)) by (intros k K; rewrite H, Z by exact K; ring).
  rewrite (sumn_ext n y' (fun _ => - (b * a))) in M by exact Y. rewrite PropVnorm.sum_const in M.
  rewrite (sumn_ext n _ (fun _ => (- (b * a)) ^ 2)) in V by (intros k K; rewrite Y by exact K; reflexivity). rewrite PropVnorm.sum_const in V.
  assert (0 < INR n) by (apply lt_0_INR; lia). assert (A : - (b * a) = 0) by (apply Rmult_eq_reg_l with (INR n); lra). rewrite A in V.
  assert (0 < s ^ 2) by (apply pow_lt; exact S0). assert (0 < INR n * s ^ 2) by (apply Rmult_lt_0_compat; assumption). lra.
Qed.
(** So nothing but NaN can be written for such a set. *)
Theorem C83_trend_data psi outs i w : all_vwritten psi outs -> (i < nset)%nat -> (1 <= length ps)%nat -> (1 <= vcount ds nd_rec i)%nat ->
  (forall row, In row ps -> trend_design nq (s_nl (ds i)) (s_nline (ds i)) (s_tline (ds i)) (L i row)) ->
  (forall j k, (j < s_nl (ds i))%nat -> (k < s_nline (ds i) j)%nat -> s_fall (ds i) (total (s_nline (ds i)) j + k)%nat = trend_at nq w j (s_tline (ds i) j k)) ->
  nth_error outs i = Some None.
Proof.
  intros (_ & W) I HN NP TD F. destruct (W i I) as (r & E & R). destruct r as [out|]; [exfalso|exact E].
  destruct R as (first & step & _ & _ & (curve & _ & _ & ys & F2 & _) & _).
  destruct F2 as [|row y ps' ys' (v & V & SZ) _]; [cbn [length] in HN; lia|].
  revert SZ. apply standardized_zero; [exact NP|lra|]. intros k K. apply (driving_zero psi i row (first + INR k * step) (v k) w); [apply TD; left; reflexivity|exact F|apply V, K].
Qed.
End Rows.
Print Assumptions C83_virtual.
Print Assumptions C83_trend_data.

(** ** Cases meeting the hypotheses *)
(** the lines of the sets of C82_case; a sample of two rows of any 41 numbers, two tasks
    reduced in either order *)
Lemma vout_order fall i : (i < 2)%nat -> lines_in_order (out_sets fall) (-10) 10 i.
Proof.
  intros I. split.
  - intros j J. cbn [out_sets s_nline s_tline s_nl] in *. split; [lia|]. split; [intros a b AB; apply le_INR; lia|]. intros a A.
    apply Rle_trans with (2 ^ 10); [|exact dbl_big]. apply Rle_trans with (INR 5); [apply le_INR; lia|cbn; lra].
  - exists 0%nat, 0%nat, 0%nat, 0%nat. cbn [out_sets s_nline s_tline s_nl]. repeat (split; [lia|]). lra.
Qed.
Notation vout_resp fall := (fun row i j => response tophat 2 (component 2 (out_sets fall) 2 0 false (row_values row) exp i j)).
Notation vout fall scale mem rows := (output_reconstruction_parallel_vmap ref_dgesol ref_dget (fun _ => 0) 1 false 2 (out_sets fall) scale 2 0 false 2 200 (-10) 10 (fun _ _ => 0%nat)
    (fun _ => case_found mem) (fun _ _ => RecFound mem mem mem mem mem) (fun _ _ => mem) 7 2 2 (fun i => if Nat.eqb i 0 then [0; 1]%nat else [1; 0]%nat) rows).
Example C83_case fall scale mem r1 r2 : length r1 = 41%nat -> length r2 = 41%nat -> exists SS Si L outs, vout fall scale mem (r1 ++ r2) = Ok outs
  /\ all_vwritten 2 (out_sets fall) scale false 2 200 (-10) 10 [r1; r2] SS Si L (vout_resp fall) outs
  /\ forall i row, (i < 2)%nat -> trend_design 2 (s_nl (out_sets fall i)) (s_nline (out_sets fall i)) (s_tline (out_sets fall i)) (L i row).
Proof.
  intros L1 L2.
  assert (OK : forall row i, (i < 2)%nat -> lines_only_ok 2 (out_sets fall) 2 0 false 2 (row_values row) i).
  { intros row i I. destruct (out_ok fall 0 false (row_values row) i I) as (NQ & _ & _ & _ & E & ET). split; [exact NQ|]. split; [cbn; lia|]. split.
    - intros j m J M. apply (E (S j) m); [lia|exact M].
    - intros j J. apply (ET (S j)). lia. }
  assert (H : forall x : nat * list R, exists y : (nat -> nat -> R) * (nat -> nat -> R) * (nat -> nat -> R), (fst x < 2)%nat ->
    lines_only_described 2 (out_sets fall) 2 0 false 2 (row_values (snd x)) (vout_resp fall (snd x)) (fst x) (fst (fst y)) (snd (fst y)) (snd y)).
  { intros [i row]. cbn [fst snd]. destruct (Nat.lt_ge_cases i 2) as [I|I]; [|exists (fun _ _ => 0, fun _ _ => 0, fun _ _ => 0); intros; lia].
    destruct (C74_virtual_described (fun _ => 0) 1 false 2 (out_sets fall) 2 0 false 2 (fun _ _ => 0%nat) (row_values row) i I (OK row i I) Logic.I) as (a & b & c & D).
    exists (a, b, c). intros _. exact D. }
  apply ClassicalChoice.choice in H. destruct H as [g D].
  exists (fun i row => fst (fst (g (i, row)))), (fun i row => snd (fst (g (i, row)))), (fun i row => snd (g (i, row))).
  destruct (C83_virtual ref_dgesol ref_dget (fun _ => 0) 1 false 2 (out_sets fall) scale 2 0 false 2 200 (-10) 10 (fun _ _ => 0%nat)
    (fun _ => case_found mem) (fun _ _ => RecFound mem mem mem mem mem) (fun _ _ => mem) [r1; r2]
    (fun i row => fst (fst (g (i, row)))) (fun i row => snd (fst (g (i, row)))) (fun i row => snd (g (i, row))) 7 2
    (fun i => if Nat.eqb i 0 then [0; 1]%nat else [1; 0]%nat) dgesol_exists dget_exists) as (outs & E & W).
  - constructor; [rewrite L1; reflexivity|]. constructor; [rewrite L2; reflexivity|constructor].
  - cbn; lia.
  - lia.
  - lia.
  - intros i I. split; [apply vout_order, I|]. split.
    + destruct (Nat.eqb i 0); cbn [seq]; [apply Permutation_refl|apply perm_swap].
    + intros row _. destruct (OK row i I) as (NQ & NL & E & ET). split; [split; [exact NQ|split; [lia|split; assumption]]|]. split; [exact (D (i, row) I)|exact Logic.I].
  - exists outs. split; [|split; [exact W|]].
    + cbn [concat length] in E. rewrite app_nil_r in E. exact E.
    + intros i row I. exact (proj2 (proj2 (D (i, row) I))).
Qed.
(** Fluxes rising by 1 per unit of time in every line, as far from constant as one likes:
    NaN is written for both sets. *)
Theorem C83_rising_lines_refuted : exists fall, (forall i j k, (j < 2 + i)%nat -> (k < 3)%nat -> fall i (3 * j + k)%nat = 1 + INR (j + k)) /\
  forall scale mem r1 r2, length r1 = 41%nat -> length r2 = 41%nat -> vout fall scale mem (r1 ++ r2) = Ok [None; None].
Proof.
  exists (fun _ p => 1 + INR (p / 3 + p mod 3)). split.
  - intros i j k J K. f_equal. f_equal. rewrite (Nat.mul_comm 3), Nat.div_add_l, Nat.div_small by lia. rewrite Nat.add_comm with (n := (j * 3)%nat), Nat.mod_add, Nat.mod_small by lia. lia.
  - intros scale mem r1 r2 L1 L2. set (fall := fun (_ : nat) p => _).
    destruct (C83_case fall scale mem r1 r2 L1 L2) as (SS & Si & L & outs & E & W & TD). rewrite E.
    assert (N : forall i, (i < 2)%nat -> nth_error outs i = Some None).
    { intros i I. apply (C83_trend_data 2 (out_sets fall) scale false 2 200 (-10) 10 [r1; r2] SS Si L (vout_resp fall) outs i (fun _ => 1) W I); [cbn; lia| |intros row _; apply TD, I|].
      - assert (i = 0 \/ i = 1)%nat as [-> | ->] by lia; cbn; lia.
      - intros j k J K. cbn [out_sets s_fall s_nline s_tline s_nl] in *. rewrite total_const. unfold trend_at. cbn [sumn pow]. unfold fall.
        rewrite Nat.div_add_l, Nat.div_small by lia. rewrite Nat.add_comm with (n := (j * 3)%nat), Nat.mod_add, Nat.mod_small by lia. rewrite Nat.add_0_r. ring. }
    destruct W as (LN & _). destruct outs as [|a [|b [|c outs]]]; cbn [length] in LN; try lia.
    pose proof (N 0%nat ltac:(lia)) as A. pose proof (N 1%nat ltac:(lia)) as B. cbn in A, B. congruence.
Qed.
Print Assumptions C83_rising_lines_refuted.
