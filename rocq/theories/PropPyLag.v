(** Property C119: the lags plotfig.py prints and draws are the centroids and the peaks
    of the transfer functions it draws. *)
From Coq Require Import Reals ZArith List Bool Arith Lia Lra.
From Verif Require Import CPrelude SemisepModel SemisepProofs ParamModel ParamSpec ParamProofs KernelCalc KernelSpec KernelLift MixSpec
  PsdKernel LuProofs MomentProofs PyModel PropPy PyLagModel.
Import ListNotations.
Open Scope R_scope.

(** the mean lag of a response, the quotient of its two integrals over all lags *)
Definition mean_lag (psi : R -> R) (x : R) : Prop :=
  exists a m, whole_line psi a /\ whole_line (fun t => t * psi t) m /\ 0 < a /\ x = m / a.
Lemma mean_lag_unique psi x y : mean_lag psi x -> mean_lag psi y -> x = y.
Proof.
  intros (a & m & A & M & _ & ->) (b & n & B & N & _ & ->). rewrite (wl_unique _ _ _ A B), (wl_unique _ _ _ M N). reflexivity.
Qed.
Lemma mixed_mean n shapes (c : nat -> comp) : (1 <= n)%nat -> (forall k, (k < n)%nat -> (shapes k < 4)%nat /\ 0 < width (c k) /\ 0 < area (c k)) ->
  mean_lag (mixed_response n shapes c) (sumn n (fun k => area (c k) * centre (c k)) / sumn n (fun k => area (c k))).
Proof.
  intros N H. exists (sumn n (fun k => area (c k))), (sumn n (fun k => area (c k) * centre (c k))). split; [|split; [|split; [|reflexivity]]].
  - unfold mixed_response. apply wl_sum. intros k K. destruct (H k K) as (T & W & _). apply shape_area; assumption.
  - eapply wl_ext; [|apply (wl_sum n (fun k a => a * shape_of (shapes k) (c k) a)); intros k K; destruct (H k K) as (T & W & _); apply shape_moment; assumption].
    intros x. unfold mixed_response. cbv beta. rewrite <- sumn_scal. reflexivity.
  - destruct n as [|n]; [lia|]. cbn [sumn]. assert (0 <= sumn n (fun k => area (c k))) by (apply sumn_ge0; intros k K; left; apply H; lia).
    destruct (H n ltac:(lia)) as (_ & _ & A). lra.
Qed.

Section Loops.
Variable pm : arr.
Variable len base ng j : nat.
Notation start := (base + j * (3 * ng + 1))%nat.
Hypothesis room : (start + (1 + 3 * ng) <= len)%nat.
Variable typetf : list nat.
Hypothesis types : List.length typetf = ng.
Hypothesis shapes : Forall drawn_shape typetf.
Notation row := (sample_row pm len).
Notation P k := (pm (start + 1 + 3 * k)%nat).
Notation C k := (pm (start + 1 + 3 * k + 1)%nat).

Lemma type_of k : (k < ng)%nat -> type_at typetf k = Ok (nth k typetf 0%nat) /\ (nth k typetf 0 <= 3)%nat.
Proof.
  intros K. rewrite <- types in K. unfold type_at. rewrite (nth_error_nth' _ 0%nat K). split; [reflexivity|].
  rewrite Forall_forall in shapes. apply shapes. apply nth_In. exact K.
Qed.
Lemma lag_at k t : (k < ng)%nat -> (t <= 3)%nat -> get_time_lag row (column base ng (S j) k 0) t = Ok (C k).
Proof.
  intros K T. unfold get_time_lag. apply Nat.leb_le in T. rewrite T.
  replace (column base ng (S j) k 0 + 1)%nat with (column base ng (S j) k 1) by (unfold column; lia).
  rewrite (col_at pm len base ng j room) by lia. reflexivity.
Qed.
Lemma general_one s k : (k < ng)%nat -> general_term row base ng (S j) typetf s k = Ok (fst s + exp (P k) * C k, snd s + exp (P k)).
Proof.
  intros K. unfold general_term. destruct (type_of k K) as (E & T). rewrite E. cbn [bind]. rewrite lag_at by assumption. cbn [bind].
  rewrite (col_at pm len base ng j room) by lia. cbn [bind]. rewrite Nat.add_0_r. do 3 f_equal. ring.
Qed.
Lemma ratio_one s k : (k < ng)%nat ->
  ratio_term row base ng (S j) typetf s k = Ok (fst s + exp (P k) * exp (P 0) * C k, snd s + exp (P k) * exp (P 0)).
Proof.
  intros K. unfold ratio_term. destruct (type_of k K) as (E & T). rewrite E. cbn [bind]. rewrite lag_at by assumption. cbn [bind].
  rewrite !(col_at pm len base ng j room) by lia. cbn [bind]. rewrite !Nat.add_0_r, exp_plus. do 3 f_equal. ring.
Qed.
Lemma centroid_one s k : (k < ng)%nat -> centroid_term row base ng (S j) typetf s k = Ok (fst s + exp (P k), snd s + exp (P k) * C k).
Proof.
  intros K. unfold centroid_term. destruct (type_of k K) as (E & T). rewrite E. cbn [bind].
  rewrite !(col_at pm len base ng j room) by lia. cbn [bind]. rewrite !Nat.add_0_r.
  destruct (nth k typetf 0%nat) as [|[|[|[|]]]]; [reflexivity|reflexivity| | |lia]; do 3 f_equal; ring.
Qed.
Lemma loop_sums (term : R * R -> nat -> outcome (R * R)) (f g : nat -> R) :
  forall n lo s, (forall s k, (lo <= k < lo + n)%nat -> term s k = Ok (fst s + f k, snd s + g k)) ->
  foldM term (seq lo n) s = Ok (fst s + sumn n (fun i => f (lo + i)%nat), snd s + sumn n (fun i => g (lo + i)%nat)).
Proof.
  induction n as [|n IH]; intros lo s H.
  - cbn. rewrite !Rplus_0_r. destruct s; reflexivity.
  - cbn [seq foldM]. rewrite H by lia. cbn [bind]. rewrite IH by (intros; apply H; lia). cbn [fst snd]. rewrite !sumn_first, !Nat.add_0_r.
    f_equal. f_equal; rewrite Rplus_assoc; do 2 f_equal; apply sumn_ext; intros i I; f_equal; lia.
Qed.
Lemma printed_general model : model = 0%nat \/ model = 2%nat \/ model = 3%nat ->
  printed_lag row base ng (S j) model typetf = Ok (sumn ng (fun k => exp (P k) * C k) / sumn ng (fun k => exp (P k))).
Proof.
  intros M. assert (E : printed_lag row base ng (S j) model typetf = printed_lag row base ng (S j) 0 typetf) by (destruct M as [-> |[-> | ->]]; reflexivity).
  rewrite E. unfold printed_lag. rewrite (loop_sums _ (fun k => exp (P k) * C k) (fun k => exp (P k))) by (intros; apply general_one; lia).
  cbn [bind fst snd]. rewrite !Rplus_0_l. reflexivity.
Qed.
Lemma drawn_general : drawn_centroid row base ng (S j) typetf = Ok (sumn ng (fun k => exp (P k) * C k) / sumn ng (fun k => exp (P k))).
Proof.
  unfold drawn_centroid. rewrite (loop_sums _ (fun k => exp (P k)) (fun k => exp (P k) * C k)) by (intros; apply centroid_one; lia).
  cbn [bind fst snd]. rewrite !Rplus_0_l. reflexivity.
Qed.
Lemma printed_ratio : (1 <= ng)%nat -> printed_lag row base ng (S j) 1 typetf
  = Ok (sumn ng (fun k => area (ratio_stored pm base ng j k) * C k) / sumn ng (fun k => area (ratio_stored pm base ng j k))).
Proof.
  intros G. unfold printed_lag. rewrite general_one by lia. cbn [bind fst snd].
  rewrite (loop_sums _ (fun k => exp (P k) * exp (P 0) * C k) (fun k => exp (P k) * exp (P 0))) by (intros; apply ratio_one; lia).
  cbn [bind fst snd]. rewrite !Rplus_0_l. f_equal.
  assert (S1 : forall f, sumn ng f = f 0%nat + sumn (ng - 1) (fun i => f (1 + i)%nat)).
  { intros f. replace ng with (S (ng - 1)) at 1 by lia. apply sumn_first. }
  rewrite (S1 (fun k => area (ratio_stored pm base ng j k) * C k)), (S1 (fun k => area (ratio_stored pm base ng j k))).
  unfold ratio_stored. cbn [area Nat.add]. rewrite !Rmult_1_l. rewrite !Nat.mul_0_r, !Nat.add_0_r. reflexivity.
Qed.
End Loops.

Section Lags.
Variable nset : nat.
Variable nlset : nat -> nat.
Variable ng uniform : nat.
Variable uv : bool.
Variable pm : arr.
Variable typetf : list nat.
Variable i j : nat.
Notation slot := (ParamSpec.slot nset nlset ng uniform uv i j).
Notation row := (sample_row pm (num_params nset nlset ng uniform uv)).
Notation base := (indx_line (if uv then 3 else 3 * nset)%nat uniform ng (fun s => S (nlset s)) i).
(** the component k of the line, from the places of the parameters *)
Definition line_comp (k : nat) : comp := Comp (exp (pm (slot (Amp k)))) (pm (slot (Centre k))) (exp (pm (slot (Width k)))).

Lemma places : has_line nset nlset i j -> (base + j * (3 * ng + 1) + (1 + 3 * ng) <= num_params nset nlset ng uniform uv)%nat
  /\ forall k, (base + j * (3 * ng + 1) + 1 + 3 * k)%nat = slot (Amp k) /\ (base + j * (3 * ng + 1) + 1 + 3 * k + 1)%nat = slot (Centre k)
    /\ (base + j * (3 * ng + 1) + 1 + 3 * k + 2)%nat = slot (Width k).
Proof.
  intros H. pose proof (fun k => C114_columns nset nlset ng uniform uv i j k H) as C. cbv zeta in C. pose proof (slot_room nset nlset ng uniform uv i j H) as R.
  split.
  - destruct (C 0%nat) as (C0 & _). unfold column in C0. unfold ParamSpec.slot, slot_at in *. cbn [offset] in *. lia.
  - intros k. destruct (C k) as (C0 & C1 & C2). rewrite <- C0, <- C1, <- C2. unfold column. lia.
Qed.

(** The lag printed for a row is the mean lag of the response of the line, in the
    general, the virtual and the mixed model. *)
Theorem C119_printed : forall model, has_line nset nlset i j -> model = 0%nat \/ model = 2%nat \/ model = 3%nat ->
  (1 <= ng)%nat -> List.length typetf = ng -> Forall drawn_shape typetf ->
  exists lag, printed_lag row base ng (S j) model typetf = Ok lag
  /\ mean_lag (mixed_response ng (fun k => nth k typetf 0%nat) line_comp) lag.
Proof.
  intros model H M G L F. destruct (places H) as (R & E). eexists. split; [apply printed_general; assumption|].
  assert (X : forall k, exp (pm (base + j * (3 * ng + 1) + 1 + 3 * k)%nat) = area (line_comp k) /\ pm (base + j * (3 * ng + 1) + 1 + 3 * k + 1)%nat = centre (line_comp k)).
  { intros k. destruct (E k) as (E0 & E1 & _). rewrite E1, E0. split; reflexivity. }
  rewrite (sumn_ext ng _ (fun k => area (line_comp k) * centre (line_comp k))) by (intros k K; destruct (X k) as (-> & ->); reflexivity).
  rewrite (sumn_ext ng (fun k => exp (pm (base + j * (3 * ng + 1) + 1 + 3 * k)%nat)) (fun k => area (line_comp k))) by (intros k K; destruct (X k) as (-> & _); reflexivity).
  apply mixed_mean; [exact G|]. intros k K. split; [|split; apply exp_pos].
  rewrite Forall_forall in F. assert (D : drawn_shape (nth k typetf 0%nat)) by (apply F, nth_In; lia). unfold drawn_shape in D. lia.
Qed.
(** It is the mean lag of the curve drawn beside it. *)
Theorem C119_curve : forall model extra lag psi, has_line nset nlset i j -> model = 0%nat \/ model = 2%nat \/ model = 3%nat ->
  (1 <= ng)%nat -> List.length typetf = ng -> Forall drawn_shape typetf ->
  printed_lag row base ng (S j) model typetf = Ok lag ->
  (forall tau, calculate_tran extra model false row base ng (S j) tau typetf = Ok (psi tau)) -> mean_lag psi lag.
Proof.
  intros model extra lag psi H M G L F E D. destruct (C119_printed model H M G L F) as (l & E' & (a & m & A & B & Z & Q)).
  rewrite E in E'. injection E' as <-. exists a, m.
  assert (X : forall tau, mixed_response ng (fun k => nth k typetf 0%nat) line_comp tau = psi tau).
  { intros tau. specialize (D tau). rewrite (C114_response nset nlset ng uniform uv pm extra model false typetf i j tau H M L F) in D. injection D as D. exact D. }
  split; [|split; [|split; assumption]].
  - eapply wl_ext; [|exact A]. exact X.
  - eapply wl_ext; [|exact B]. intros t. cbv beta. rewrite X. reflexivity.
Qed.
(** The centroid in the histogram is the same number. *)
Theorem C119_centroid : forall model, has_line nset nlset i j -> model = 0%nat \/ model = 2%nat \/ model = 3%nat ->
  List.length typetf = ng -> Forall drawn_shape typetf ->
  drawn_centroid row base ng (S j) typetf = printed_lag row base ng (S j) model typetf.
Proof.
  intros model H M L F. destruct (places H) as (R & _). rewrite drawn_general, printed_general by assumption. reflexivity.
Qed.
(** In the ratio mode it is the mean lag of the response, also for the shapes whose
    curve is drawn wrongly (C114). *)
Theorem C119_ratio : has_line nset nlset i j -> (1 <= ng)%nat -> List.length typetf = ng -> Forall drawn_shape typetf ->
  exists lag, printed_lag row base ng (S j) 1 typetf = Ok lag
  /\ mean_lag (mixed_response ng (fun k => nth k typetf 0%nat) (ratio_comp nset nlset ng uniform uv pm i j)) lag.
Proof.
  intros H G L F. destruct (places H) as (R & E). eexists. split; [apply printed_ratio; assumption|].
  assert (X : forall k, ratio_stored pm base ng j k = ratio_comp nset nlset ng uniform uv pm i j k).
  { intros k. unfold ratio_stored, ratio_comp. destruct (E k) as (E0 & E1 & E2). rewrite E1, E2, E0. destruct (E 0%nat) as (Z0 & _). rewrite <- Z0, Nat.mul_0_r, Nat.add_0_r. reflexivity. }
  rewrite (sumn_ext ng _ (fun k => area (ratio_comp nset nlset ng uniform uv pm i j k) * centre (ratio_comp nset nlset ng uniform uv pm i j k))).
  2:{ intros k K. rewrite X. destruct (E k) as (_ & -> & _). reflexivity. }
  rewrite (sumn_ext ng (fun k => area (ratio_stored pm base ng j k)) (fun k => area (ratio_comp nset nlset ng uniform uv pm i j k))) by (intros k K; rewrite X; reflexivity).
  apply mixed_mean; [exact G|]. intros k K. split; [|split; [apply exp_pos|]].
  - rewrite Forall_forall in F. assert (D : drawn_shape (nth k typetf 0%nat)) by (apply F, nth_In; lia). unfold drawn_shape in D. lia.
  - cbn [ratio_comp area]. apply Rmult_lt_0_compat; [destruct k; [lra|apply exp_pos]|apply exp_pos].
Qed.
End Lags.

(** ** Peaks *)
Lemma exp_le u v : u <= v -> exp u <= exp v.
Proof. intros [L| ->]; [left; apply exp_increasing, L|right; reflexivity]. Qed.
Lemma peak_shape t c : (t <= 3)%nat -> 0 < width c -> 0 <= area c -> forall x,
  shape_of t c x <= shape_of t c (match t with 0%nat | 1%nat => centre c | _ => centre c - width c end).
Proof.
  intros T W A x. pose proof sqrt_2pi_pos as Q. destruct t as [|[|[|[|]]]]; [| | | |lia]; cbn [shape_of].
  - unfold gaussian. apply Rmult_le_compat_l; [apply Rmult_le_pos; [exact A|left; apply Rinv_0_lt_compat, Rmult_lt_0_compat; assumption]|].
    apply exp_le. unfold Rdiv. apply Rmult_le_compat_r; [left; apply Rinv_0_lt_compat; nra|]. pose proof (Rle_0_sqr (x - centre c)) as S. unfold Rsqr in S. lra.
  - unfold tophat. assert (P : 0 <= area c / (2 * width c)) by (apply Rmult_le_pos; [exact A|left; apply Rinv_0_lt_compat; lra]).
    destruct (Rle_dec (Rabs (centre c - centre c)) _) as [|N].
    + destruct (Rle_dec _ _); lra.
    + exfalso. apply N. rewrite Rminus_eq_0, Rabs_R0. lra.
  - unfold gamma2. cbv zeta. destruct (Rle_dec _ (centre c - width c)) as [|N]; [|exfalso; apply N; lra].
    set (v := (x - (centre c - 2 * width c)) / width c).
    replace (centre c - width c - (centre c - 2 * width c)) with (width c) by ring.
    assert (K : 0 <= area c / width c) by (apply Rmult_le_pos; [exact A|left; apply Rinv_0_lt_compat; exact W]).
    replace (area c * width c / (width c * width c) * exp (- width c / width c)) with (area c / width c * exp (Ropp 1)).
    2:{ replace (- width c / width c) with (Ropp 1) by (field; lra). field. lra. }
    destruct (Rle_dec _ x) as [L|]; [|apply Rmult_le_pos; [exact K|left; apply exp_pos]].
    replace (area c * (x - (centre c - 2 * width c)) / (width c * width c) * exp (- (x - (centre c - 2 * width c)) / width c)) with (area c / width c * (v * exp (- v))).
    2:{ replace (- (x - (centre c - 2 * width c)) / width c) with (- v) by (unfold v; field; lra). unfold v at 1. field. lra. }
    apply Rmult_le_compat_l; [exact K|]. pose proof (exp_ineq1_le (v - 1)) as I. pose proof (exp_pos (- v)) as Z.
    replace (exp (Ropp 1)) with (exp (v - 1) * exp (- v)) by (rewrite <- exp_plus; f_equal; ring).
    apply Rmult_le_compat_r; lra.
  - unfold exponential. cbv zeta. destruct (Rle_dec _ (centre c - width c)) as [|N]; [|exfalso; apply N; lra].
    assert (K : 0 <= area c / width c) by (apply Rmult_le_pos; [exact A|left; apply Rinv_0_lt_compat; exact W]).
    destruct (Rle_dec _ x) as [L|]; [|apply Rmult_le_pos; [exact K|left; apply exp_pos]].
    apply Rmult_le_compat_l; [exact K|]. apply exp_le. unfold Rdiv. apply Rmult_le_compat_r; [left; apply Rinv_0_lt_compat; exact W|]. lra.
Qed.
(** The lag drawn for a component is where its response is greatest. *)
Theorem C119_peak : forall nset nlset ng uniform uv pm typetf i j k, has_line nset nlset i j -> (k < ng)%nat ->
  List.length typetf = ng -> Forall drawn_shape typetf ->
  exists p, drawn_peak (sample_row pm (num_params nset nlset ng uniform uv))
      (indx_line (if uv then 3 else 3 * nset)%nat uniform ng (fun s => S (nlset s)) i) ng (S j) typetf k = Ok p
  /\ forall x, shape_of (nth k typetf 0%nat) (line_comp nset nlset ng uniform uv pm i j k) x
            <= shape_of (nth k typetf 0%nat) (line_comp nset nlset ng uniform uv pm i j k) p.
Proof.
  intros nset nlset ng uniform uv pm typetf i j k H K L F. destruct (places nset nlset ng uniform uv i j H) as (R & E). destruct (E k) as (_ & E1 & E2).
  destruct (type_of ng typetf L F k K) as (TY & T).
  pose proof (peak_shape _ (line_comp nset nlset ng uniform uv pm i j k) T (exp_pos _) (Rlt_le _ _ (exp_pos _))) as PK.
  unfold drawn_peak. rewrite TY. cbn [bind]. rewrite !(col_at pm _ _ ng j R) by lia. cbn [bind]. rewrite E1, E2.
  destruct (nth k typetf 0%nat) as [|[|[|[|]]]]; [| | | |lia]; eexists; (split; [reflexivity|exact PK]).
Qed.

(** The line for the most probable row stands at its peak, for the first three types. *)
Theorem C119_mark : forall rows best base ng j typetf k t p, nth_error typetf k = Some t -> (t <= 2)%nat ->
  drawn_peak best base ng j typetf k = Ok p -> pmax_marks rows best t (column base ng j k 1) = Ok [p].
Proof.
  intros rows best base ng j typetf k t p TY T E. unfold drawn_peak, type_at in E. rewrite TY in E. cbn [bind] in E. unfold pmax_marks.
  replace (column base ng j k 1 + 1)%nat with (column base ng j k 2) by (unfold column; lia).
  destruct (at_ best (column base ng j k 1)); try discriminate. cbn [bind] in *. destruct (at_ best (column base ng j k 2)); try discriminate. cbn [bind] in *.
  destruct t as [|[|[|]]]; [| | |lia]; injection E as <-; reflexivity.
Qed.
(** For exponentials one value comes for every row, with its own width: axvline is not
    given a number unless the sample has one row. *)
Theorem C119_mark_rows : forall rows best c cen, at_ best c = Ok cen -> (c + 1 < List.length best)%nat ->
  (forall r, In r rows -> (c + 1 < List.length r)%nat) ->
  pmax_marks rows best 3 c = Ok (map (fun r => cen - exp (nth (c + 1) r 0)) rows).
Proof.
  intros rows best c cen E B H. unfold pmax_marks. rewrite E. cbn [bind].
  assert (A : forall r, (c + 1 < List.length r)%nat -> at_ r (c + 1)%nat = Ok (nth (c + 1) r 0)) by (intros r L; unfold at_; rewrite (nth_error_nth' r 0 L); reflexivity).
  rewrite A by exact B. cbn [bind]. clear B E. induction rows as [|r rows IH]; [reflexivity|].
  cbn [mapM map]. rewrite A by (apply H; left; reflexivity). cbn [bind]. rewrite IH by (intros; apply H; right; assumption). reflexivity.
Qed.

(** two rows with widths 1 and e, the first the most probable *)
Theorem C119_mark_refuted : exists rows best p q, In best rows /\ drawn_peak best 0 1 1 [3%nat] 0 = Ok p
  /\ pmax_marks rows best 3 (column 0 1 1 0 1) = Ok [p; q] /\ q < p.
Proof.
  exists [[0; 0; 5; 0]; [0; 0; 6; 1]], [0; 0; 5; 0], (5 - exp 0), (5 - exp 1). split; [left; reflexivity|]. split; [reflexivity|]. split; [reflexivity|].
  pose proof (exp_increasing 0 1). lra.
Qed.

(** ** Cases: lags 2 and 12 with equal areas; the mean lag is 7 *)
Example C119_printed_case : printed_lag (sample_row two_lags 10) (indx_line 3 0 2 (fun _ => 2%nat) 0) 2 1 0 [2; 3]%nat = Ok 7
  /\ drawn_centroid (sample_row two_lags 10) 3 2 1 [2; 3]%nat = Ok 7
  /\ printed_lag (sample_row two_lags 10) 3 2 1 1 [2; 2]%nat = Ok 7
  /\ mean_lag (mixed_response 2 (fun k => nth k [2; 3]%nat 0%nat) (line_comp 1 (fun _ => 1%nat) 2 0 false two_lags 0 0)) 7.
Proof.
  assert (E : printed_lag (sample_row two_lags 10) (indx_line 3 0 2 (fun _ => 2%nat) 0) 2 1 0 [2; 3]%nat = Ok 7) by (cbn; rewrite exp_0; f_equal; lra).
  split; [exact E|]. split; [cbn; rewrite exp_0; f_equal; lra|]. split; [cbn; rewrite Rplus_0_r, exp_0; f_equal; lra|].
  destruct (C119_printed 1 (fun _ => 1%nat) 2 0 false two_lags [2; 3]%nat 0 0 0) as (l & E' & M);
    [unfold has_line; lia|auto|lia|reflexivity|repeat constructor; unfold drawn_shape; lia|].
  assert (X : Ok l = Ok 7) by (rewrite <- E'; exact E). injection X as ->. exact M.
Qed.
Example C119_curve_case : exists psi, (forall tau, calculate_tran false 0 false (sample_row two_lags 10) 3 2 1 tau [2; 3]%nat = Ok (psi tau)) /\ mean_lag psi 7.
Proof.
  exists (mixed_response 2 (fun k => nth k [2; 3]%nat 0%nat) (line_comp 1 (fun _ => 1%nat) 2 0 false two_lags 0 0)). split; [|apply C119_printed_case].
  intros tau. refine (C114_response 1 (fun _ => 1%nat) 2 0 false two_lags false 0 false [2; 3]%nat 0 0 tau _ _ eq_refl _); [unfold has_line; lia|auto|repeat constructor; unfold drawn_shape; lia].
Qed.
Example C119_peak_case : drawn_peak (sample_row two_lags 10) 3 2 1 [2; 3]%nat 1 = Ok (12 - exp 0) /\ drawn_peak (sample_row two_lags 10) 3 2 1 [0; 1]%nat 1 = Ok 12.
Proof. split; reflexivity. Qed.
(** two rows with widths 1 and e: two lines instead of one *)
Example C119_mark_case : pmax_marks [[0; 5; 0]; [0; 6; 1]] [0; 5; 0] 3 1 = Ok [5 - exp 0; 5 - exp 1]
  /\ pmax_marks [[0; 5; 0]; [0; 6; 1]] [0; 5; 0] 2 1 = Ok [5 - exp 0] /\ 5 - exp 0 <> 5 - exp 1.
Proof. split; [reflexivity|]. split; [reflexivity|]. pose proof (exp_increasing 0 1). lra. Qed.

Print Assumptions C119_printed.
Print Assumptions C119_curve.
Print Assumptions C119_centroid.
Print Assumptions C119_ratio.
Print Assumptions C119_peak.
Print Assumptions C119_mark.
Print Assumptions C119_mark_rows.
Print Assumptions C119_mark_refuted.
