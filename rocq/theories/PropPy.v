(** Property C114: what the Python interface and the plotting scripts take for the
    lags, the widths and the transfer function of a line. *)
From Coq Require Import Reals ZArith List Bool Arith Lia Lra Ascii String.
From Verif Require Import CPrelude SemisepModel SemisepProofs ParamModel ParamSpec ParamProofs KernelCalc KernelSpec MixSpec
  ScanModel ScanProofs PropScan PyModel.
Import ListNotations.
Open Scope nat_scope.

(** a row of the posterior sample: all parameters, in order *)
Definition sample_row (pm : arr) (np : nat) : list R := map pm (seq 0 np).
Lemma row_length pm np : List.length (sample_row pm np) = np.
Proof. unfold sample_row. rewrite map_length. apply seq_length. Qed.
Lemma row_at pm np i : i < np -> nth_error (sample_row pm np) i = Some (pm i).
Proof.
  intros L. unfold sample_row. erewrite map_nth_error; [reflexivity|].
  rewrite (nth_error_nth' _ 0) by (rewrite seq_length; exact L). rewrite seq_nth by exact L. reflexivity.
Qed.

Lemma flat_map_single {A B} (f : A -> list B) (g : A -> B) l : (forall x, In x l -> f x = [g x]) -> flat_map f l = map g l.
Proof. induction l as [|a l IH]; intros H; [reflexivity|]. cbn. rewrite H by (left; reflexivity). rewrite IH by (intros; apply H; right; assumption). reflexivity. Qed.
Lemma flat_map_nil {A B} (f : A -> list B) l : (forall x, In x l -> f x = []) -> flat_map f l = [].
Proof. induction l as [|a l IH]; intros H; [reflexivity|]. cbn. rewrite H by (left; reflexivity). apply IH. intros; apply H; right; assumption. Qed.
Lemma slice_row pm np a n : a + 3 * n <= np + 2 -> py_slice (sample_row pm np) a (a + n * 3) = map (fun k => pm (a + 3 * k)) (seq 0 n).
Proof.
  intros L. unfold py_slice. rewrite row_length.
  destruct (Nat.le_gt_cases n np) as [N|N].
  - assert (E : seq 0 np = seq 0 n ++ seq n (np - n)) by (pose proof (seq_app n (np - n) 0) as S; rewrite Nat.add_0_l in S; rewrite <- S; f_equal; lia).
    rewrite E, flat_map_app. rewrite (flat_map_nil _ (seq n (np - n))).
    2:{ intros x X. apply in_seq in X. destruct (Nat.ltb_spec (a + 3 * x) (a + n * 3)); [lia|reflexivity]. }
    rewrite app_nil_r. apply flat_map_single. intros x X. apply in_seq in X.
    destruct (Nat.ltb_spec (a + 3 * x) (a + n * 3)); [|lia]. rewrite row_at by lia. reflexivity.
  - exfalso. lia.
Qed.

Section Interface.
Variable nset : nat.
Variable nlset : nat -> nat.
Variable ng uniform : nat.
Variable uniform_var : bool.
Notation np := (num_params nset nlset ng uniform uniform_var).
Notation slot := (ParamSpec.slot nset nlset ng uniform uniform_var).
Notation line_no := (ParamSpec.line_no nlset uniform).
Notation has_line := (ParamSpec.has_line nset nlset).
Notation npv := (py_num_param_var nset uniform_var).

Lemma npv_var : npv = num_params_var nset uniform_var. Proof. reflexivity. Qed.
Lemma slot_room i j : has_line i j -> slot i j SysErr + (1 + 3 * ng) <= np.
Proof.
  intros [I J]. unfold num_params. rewrite npl_lines. unfold ParamSpec.slot, ParamSpec.slot_at, per_line, ParamSpec.offset.
  pose proof (line_no_lt nset nlset uniform i j I J). nia.
Qed.
Lemma skip_before n : fold_left (fun x j => x + (1 + ng * 3) * nlset j) (seq 0 n) npv = npv + before nlset n * (1 + ng * 3).
Proof. induction n as [|n IH]; [cbn; lia|]. rewrite seq_S, fold_left_app, IH. cbn [fold_left before]. rewrite Nat.add_0_l. lia. Qed.
Lemma check_ok i j : has_line i j -> check_line nset nlset (Z.of_nat i) (Z.of_nat j) = Ok tt.
Proof.
  intros [I J]. unfold check_line. rewrite Nat2Z.id.
  destruct (Z.leb_spec (Z.of_nat nset) (Z.of_nat i)); [lia|]. destruct (Z.ltb_spec (Z.of_nat i) 0); [lia|].
  destruct (Z.leb_spec (Z.of_nat (nlset i)) (Z.of_nat j)); [lia|]. destruct (Z.ltb_spec (Z.of_nat j) 0); [lia|]. reflexivity.
Qed.

(** The lags and the widths of the line, as they stand in the row. *)
Definition line_lags (pm : arr) (i j : nat) : list R := map (fun k => pm (slot i j (Centre k))) (seq 0 ng).
Definition line_widths (pm : arr) (i j : nat) : list R := map (fun k => pm (slot i j (Width k))) (seq 0 ng).

Lemma slice_lags pm i j idx : has_line i j -> idx = slot i j SysErr ->
  py_slice (sample_row pm np) (idx + 2) (idx + 2 + ng * 3) = line_lags pm i j.
Proof.
  intros H ->. pose proof (slot_room i j H). rewrite slice_row by lia. apply map_ext. intros k. f_equal.
  unfold ParamSpec.slot, ParamSpec.slot_at, ParamSpec.offset. lia.
Qed.
Lemma slice_widths pm i j idx : has_line i j -> idx = slot i j SysErr ->
  py_slice (sample_row pm np) (idx + 3) (idx + 3 + ng * 3) = line_widths pm i j.
Proof.
  intros H ->. pose proof (slot_room i j H). rewrite slice_row by lia. apply map_ext. intros k. f_equal.
  unfold ParamSpec.slot, ParamSpec.slot_at, ParamSpec.offset. lia.
Qed.

(** ** The getters are right for the first set, and when all sets share one response. *)
Theorem C114_lags : forall pm i j, has_line i j -> i = 0 \/ uniform = 1 ->
  posterior_timelag nset nlset npv uniform ng (Z.of_nat i) (Z.of_nat j) (sample_row pm np) = Ok (line_lags pm i j).
Proof.
  intros pm i j H C. unfold posterior_timelag. rewrite check_ok by exact H. cbn [bind]. f_equal. apply slice_lags; [exact H|].
  unfold idx_timelag, ParamSpec.slot, ParamSpec.slot_at, ParamSpec.line_no, per_line, ParamSpec.offset, skip_sets, py_range. rewrite Nat2Z.id, npv_var.
  destruct (Nat.eqb_spec uniform 1); [lia|]. destruct C as [-> | ->]; [|lia]. cbn [Z.of_nat Z.sub Z.opp Z.add Z.to_nat seq fold_left before]. lia.
Qed.
Theorem C114_widths : forall pm i j, has_line i j -> i = 0 \/ uniform = 1 ->
  posterior_width nset nlset npv uniform ng (Z.of_nat i) (Z.of_nat j) (sample_row pm np) = Ok (line_widths pm i j).
Proof.
  intros pm i j H C. unfold posterior_width. rewrite check_ok by exact H. cbn [bind]. f_equal. apply slice_widths; [exact H|].
  unfold idx_width, ParamSpec.slot, ParamSpec.slot_at, ParamSpec.line_no, per_line, ParamSpec.offset, skip_sets, py_range. rewrite Nat2Z.id, npv_var.
  destruct (Nat.eqb_spec uniform 0) as [E|E]; destruct (Nat.eqb_spec uniform 1) as [F|F]; try lia; destruct C as [-> |C]; try lia;
    cbn [Z.of_nat Z.sub Z.opp Z.add Z.to_nat seq fold_left before]; lia.
Qed.
(** Lines that do not exist are refused. *)
Theorem C114_refused {A} : forall u n i set line (row : list A), ~ ((0 <= set < Z.of_nat nset)%Z /\ (0 <= line < Z.of_nat (nlset (Z.to_nat set)))%Z) ->
  posterior_timelag nset nlset n u i set line row = Exit /\ posterior_width nset nlset n u i set line row = Exit.
Proof.
  intros u n i set line row H.
  assert (E : check_line nset nlset set line = Exit).
  { unfold check_line. destruct (Z.leb_spec (Z.of_nat nset) set); [reflexivity|]. destruct (Z.ltb_spec set 0); [reflexivity|].
    destruct (Z.leb_spec (Z.of_nat (nlset (Z.to_nat set))) line); [reflexivity|]. destruct (Z.ltb_spec line 0); [reflexivity|]. exfalso. apply H. lia. }
  unfold posterior_timelag, posterior_width. rewrite E. split; reflexivity.
Qed.
(** ** For the later sets with their own responses, the set before is returned. *)
Theorem C114_lags_refuted : forall pm i j, uniform <> 1 -> 1 <= i -> has_line i j -> has_line (i - 1) j ->
  posterior_timelag nset nlset npv uniform ng (Z.of_nat i) (Z.of_nat j) (sample_row pm np) = Ok (line_lags pm (i - 1) j).
Proof.
  intros pm i j U I H H'. unfold posterior_timelag. rewrite check_ok by exact H. cbn [bind]. f_equal. apply slice_lags; [exact H'|].
  unfold idx_timelag, ParamSpec.slot, ParamSpec.slot_at, ParamSpec.line_no, per_line, ParamSpec.offset, skip_sets, py_range. rewrite Nat2Z.id.
  destruct (Nat.eqb_spec uniform 1); [lia|]. replace (Z.to_nat (Z.of_nat i - 1)) with (i - 1) by lia. rewrite skip_before, npv_var. lia.
Qed.
Theorem C114_widths_refuted : forall pm i j, uniform = 0 -> 1 <= i -> has_line i j -> has_line (i - 1) j ->
  posterior_width nset nlset npv uniform ng (Z.of_nat i) (Z.of_nat j) (sample_row pm np) = Ok (line_widths pm (i - 1) j).
Proof.
  intros pm i j U I H H'. unfold posterior_width. rewrite check_ok by exact H. cbn [bind]. f_equal. apply slice_widths; [exact H'|].
  unfold idx_width, ParamSpec.slot, ParamSpec.slot_at, ParamSpec.line_no, per_line, ParamSpec.offset, skip_sets, py_range. rewrite Nat2Z.id.
  destruct (Nat.eqb_spec uniform 1); [lia|]. destruct (Nat.eqb_spec uniform 0); [|lia].
  replace (Z.to_nat (Z.of_nat i - 1)) with (i - 1) by lia. rewrite skip_before, npv_var. lia.
Qed.
(** In the photometric class the first of the lags is the logarithm of the damping
    time of the first set. *)
Theorem C114_photometric_refuted : forall pm, has_line 0 0 -> 1 <= ng ->
  exists r, posterior_timelag nset nlset pmap_num_param_var uniform ng 0%Z 0%Z (sample_row pm np) = Ok (pm 2 :: r).
Proof.
  intros pm H G. change 0%Z with (Z.of_nat 0) at 1. unfold posterior_timelag. change 0%Z with (Z.of_nat 0). rewrite check_ok by exact H. cbn [bind].
  replace (idx_timelag pmap_num_param_var uniform nlset ng (Z.of_nat 0) (Z.of_nat 0)) with 0.
  2:{ unfold idx_timelag. destruct (uniform =? 1); cbn; lia. }
  pose proof (slot_room 0 0 H) as R. unfold ParamSpec.slot, ParamSpec.slot_at in R. rewrite slice_row.
  2:{ unfold ParamSpec.line_no in R. cbn [before] in R. destruct (uniform =? 1); cbn [offset] in R; lia. }
  destruct ng; [lia|]. eexists. reflexivity.
Qed.

(** ** The columns the plots use are the places of the parameters, for every set. *)
Theorem C114_columns : forall i j k, has_line i j -> 
  let base := indx_line (if uniform_var then 3 else 3 * nset) uniform ng (fun s => S (nlset s)) i in
  column base ng (S j) k 0 = slot i j (Amp k) /\ column base ng (S j) k 1 = slot i j (Centre k) /\ column base ng (S j) k 2 = slot i j (Width k).
Proof.
  intros i j k H base.
  assert (E : base = num_params_var nset uniform_var + (if uniform =? 1 then 0 else before nlset i) * (1 + ng * 3)).
  { unfold base, num_params_var. clear H. induction i as [|i IH]; cbn [indx_line before]; destruct (uniform =? 1) eqn:U; try lia.
    rewrite IH. lia. }
  unfold column, ParamSpec.slot, ParamSpec.slot_at, ParamSpec.line_no, per_line, ParamSpec.offset. rewrite E. destruct (uniform =? 1); lia.
Qed.
(** The plot of the decomposition has them with one set; with more it stops. *)
Theorem C114_decomposition_refuted : forall nd m, 2 <= nd -> decomp_indx_line nd m = Exit.
Proof. intros nd m H. unfold decomp_indx_line. destruct (Nat.leb_spec nd 1); [lia|reflexivity]. Qed.
Theorem C114_decomposition_one : nset = 1 -> decomp_indx_line nset 0 = Ok (slot 0 0 SysErr).
Proof.
  intros ->. unfold ParamSpec.slot, ParamSpec.slot_at, ParamSpec.line_no. cbn. destruct (uniform =? 1), uniform_var; reflexivity.
Qed.
End Interface.

(** Two sets, the first with two lines and the second with one, one component each:
    the parameters of the three lines begin at 6, 10 and 14. *)
Definition two_sets (i : nat) : nat := match i with O => 2 | _ => 1 end.
Example C114_lags_case : forall pm,
  posterior_timelag 2 two_sets (py_num_param_var 2 false) 0 1 0 1 (sample_row pm 18) = Ok [pm 12]
  /\ line_lags 2 two_sets 1 0 false pm 0 1 = [pm 12]
  /\ posterior_timelag 2 two_sets (py_num_param_var 2 false) 0 1 1 0 (sample_row pm 18) = Ok [pm 8]
  /\ line_lags 2 two_sets 1 0 false pm 1 0 = [pm 16] /\ line_lags 2 two_sets 1 0 false pm 0 0 = [pm 8]
  /\ num_params 2 two_sets 1 0 false = 18 /\ has_line 2 two_sets 1 0 /\ has_line 2 two_sets 0 1.
Proof. intros pm. unfold has_line. cbn. repeat split; lia. Qed.
Example C114_widths_case : forall pm,
  posterior_width 2 two_sets (py_num_param_var 2 false) 0 1 1 0 (sample_row pm 18) = Ok [pm 9]
  /\ line_widths 2 two_sets 1 0 false pm 1 0 = [pm 17] /\ line_widths 2 two_sets 1 0 false pm 0 0 = [pm 9]
  /\ posterior_width 2 two_sets (py_num_param_var 2 true) 1 1 1 0 (sample_row pm 11) = Ok (line_widths 2 two_sets 1 1 true pm 1 0).
Proof. intros pm. repeat split. Qed.
Example C114_refused_case : forall pm,
  posterior_timelag 2 two_sets (py_num_param_var 2 false) 0 1 1 1 (sample_row pm 18) = Exit
  /\ posterior_timelag 2 two_sets (py_num_param_var 2 false) 0 1 (-1) 0 (sample_row pm 18) = Exit.
Proof. intros pm. split; reflexivity. Qed.
(** one set with one line and two components: ln tau_d and the first lag *)
Example C114_photometric_case : forall pm,
  posterior_timelag 1 (fun _ => 1) pmap_num_param_var 0 2 0 0 (sample_row pm 10) = Ok [pm 2; pm 5]
  /\ line_lags 1 (fun _ => 1) 2 0 false pm 0 0 = [pm 5; pm 8] /\ num_params 1 (fun _ => 1) 2 0 false = 10.
Proof. intros pm. repeat split. Qed.
Example C114_columns_case : column (indx_line 6 0 1 (fun s => S (two_sets s)) 1) 1 1 0 1 = 16.
Proof. reflexivity. Qed.

(** ** The transfer function that is drawn *)
Open Scope R_scope.
Definition drawn_shape (ty : nat) : Prop := (ty <= 3)%nat.

Lemma sqrt_2pi_pos : 0 < sqrt (2 * PI).
Proof. apply sqrt_lt_R0. pose proof PI_RGT_0. lra. Qed.
Lemma gauss_term_spec a c w tau : 0 < w -> gauss_term a c w tau = gaussian (Comp a c w) tau.
Proof.
  intros W. pose proof sqrt_2pi_pos. unfold gauss_term, gaussian. cbn [area centre width].
  replace (- (1 / 2) * (tau - c) ^ 2 / w ^ 2) with (- ((tau - c) * (tau - c)) / (2 * (w * w))) by (field; lra). field. split; lra.
Qed.
Lemma hat_term_spec a c w tau : 0 < w -> hat_term a c w tau = tophat (Comp a c w) tau.
Proof.
  intros W. unfold hat_term, tophat, heaviside1. cbn [area centre width]. destruct (Rlt_dec _ _), (Rle_dec _ _); try lra; field; lra.
Qed.
Lemma gamma_term_spec a c w tau : 0 < w -> in_mask tau (c - 2 * w) (gamma_term a (c - 2 * w) w tau) = gamma2 (Comp a c w) tau.
Proof.
  intros W. unfold in_mask, gamma_term, gamma2. cbn [area centre width]. destruct (Rle_dec _ _); [|reflexivity]. field. lra.
Qed.
Lemma exp_term_spec a c w tau : 0 < w -> in_mask tau (c - w) (exp_term a (c - w) w tau) = exponential (Comp a c w) tau.
Proof. intros W. unfold in_mask, exp_term, exponential. cbn [area centre width]. destruct (Rle_dec _ _); reflexivity. Qed.

Section Drawn.
Variable pm : arr.
Variable len base ng j : nat.
Variable flagneg : bool.
Variable tau : R.
Notation start := (base + j * (3 * ng + 1))%nat.
Hypothesis room : (start + (1 + 3 * ng) <= len)%nat.
Notation row := (sample_row pm len).
Definition amplitude (p : R) : R := if flagneg then p else exp p.

Lemma col_at k c : (k < ng)%nat -> (c < 3)%nat -> at_ row (column base ng (S j) k c) = Ok (pm (start + 1 + 3 * k + c)%nat).
Proof.
  intros K C. unfold at_. assert (E : column base ng (S j) k c = (start + 1 + 3 * k + c)%nat) by (unfold column; lia).
  rewrite E, row_at by lia. reflexivity.
Qed.
Lemma general_step k ty tran mask : (k < ng)%nat -> drawn_shape ty ->
  exists mask', tran_general flagneg row base ng (S j) tau k ty (tran, mask) = Ok (tran + MixSpec.shape_of ty (stored amplitude pm start k) tau, mask').
Proof.
  intros K D. unfold tran_general. rewrite !col_at by lia. cbn [bind]. unfold stored. rewrite Nat.add_0_r.
  pose proof (exp_pos (pm (start + 1 + 3 * k + 2)%nat)) as W.
  destruct ty as [|[|[|[|]]]]; [| | | |unfold drawn_shape in D; lia]; cbn [MixSpec.shape_of].
  - eexists. rewrite <- gauss_term_spec by exact W. reflexivity.
  - eexists. rewrite <- hat_term_spec by exact W. reflexivity.
  - eexists. rewrite <- gamma_term_spec by exact W. reflexivity.
  - eexists. rewrite <- exp_term_spec by exact W. reflexivity.
Qed.
Lemma general_loop extra model typetf : model = 0%nat \/ model = 2%nat \/ model = 3%nat -> forall k tran mask,
  (k + List.length typetf <= ng)%nat -> Forall drawn_shape typetf ->
  exists mask', tran_loop extra model flagneg row base ng (S j) tau k typetf (tran, mask)
    = Ok (tran + sumn (List.length typetf) (fun i => MixSpec.shape_of (nth i typetf 0%nat) (stored amplitude pm start (k + i)) tau), mask').
Proof.
  intros M. induction typetf as [|ty r IH]; intros k tran mask L F.
  - exists mask. cbn. rewrite Rplus_0_r. reflexivity.
  - inversion F as [|? ? D F']; subst. cbn [List.length] in L.
    destruct (general_step k ty tran mask) as (m1 & E1); [lia|exact D|].
    destruct (IH (S k) (tran + MixSpec.shape_of ty (stored amplitude pm start k) tau) m1) as (m2 & E2); [lia|exact F'|].
    exists m2. cbn [tran_loop].
    assert (E : forall A B, (match model with 0%nat | 2%nat | 3%nat => A | 1%nat => B | _ => Ok (tran, mask) end) = (A : outcome (R * option R))).
    { intros. destruct M as [-> | [-> | ->]]; reflexivity. }
    rewrite E, E1. cbn [bind]. rewrite E2. f_equal. f_equal. cbn [List.length].
    assert (S0 : forall n (f : nat -> R), sumn (S n) f = f 0%nat + sumn n (fun i => f (S i))).
    { clear. induction n as [|n IH]; intros f; [cbn; lra|]. change (sumn (S (S n)) f) with (sumn (S n) f + f (S n)). rewrite IH. cbn [sumn]. lra. }
    rewrite S0. cbn [nth]. rewrite Nat.add_0_r, Rplus_assoc. f_equal. f_equal. apply sumn_ext. intros i I. f_equal. f_equal. lia.
Qed.
End Drawn.

(** The curve drawn for a line of the general, the virtual or the mixed model is, at
    every point, the transfer function with the components stored for that line. *)
Theorem C114_response : forall nset nlset ng uniform uniform_var pm extra model (flagneg : bool) typetf i j tau,
  has_line nset nlset i j -> model = 0%nat \/ model = 2%nat \/ model = 3%nat ->
  List.length typetf = ng -> Forall drawn_shape typetf ->
  calculate_tran extra model flagneg (sample_row pm (num_params nset nlset ng uniform uniform_var))
    (indx_line (if uniform_var then 3 else 3 * nset)%nat uniform ng (fun s => S (nlset s)) i) ng (S j) tau typetf
  = Ok (mixed_response ng (fun k => nth k typetf 0%nat)
      (fun k => Comp (let a := pm (slot nset nlset ng uniform uniform_var i j (Amp k)) in if flagneg then a else exp a)
                     (pm (slot nset nlset ng uniform uniform_var i j (Centre k))) (exp (pm (slot nset nlset ng uniform uniform_var i j (Width k))))) tau).
Proof.
  intros nset nlset ng uniform uv pm extra model flagneg typetf i j tau H M L F.
  set (base := indx_line _ uniform ng _ i).
  pose proof (fun k => C114_columns nset nlset ng uniform uv i j k H) as C. cbv zeta in C. fold base in C.
  pose proof (slot_room nset nlset ng uniform uv i j H) as R.
  assert (S0 : (base + j * (3 * ng + 1) = slot nset nlset ng uniform uv i j SysErr)%nat).
  { destruct (C 0%nat) as (C0 & _). unfold column in C0. unfold slot, slot_at in *. cbn [offset] in *. lia. }
  destruct (general_loop pm (num_params nset nlset ng uniform uv) base ng j flagneg tau ltac:(lia) extra model typetf M 0 0 None) as (m & E);
    [lia|exact F|].
  unfold calculate_tran. rewrite E. cbn [bind fst]. f_equal. rewrite Rplus_0_l, L. unfold mixed_response. apply sumn_ext. intros k K. f_equal.
  unfold stored, amplitude. rewrite Nat.add_0_l. destruct (C k) as (C0 & C1 & C2). cbv zeta. rewrite <- C0, <- C1, <- C2. unfold column.
  f_equal; [|f_equal; lia|do 2 f_equal; lia].
  replace (base + (S j - 1) * (ng * 3 + 1) + 1 + k * 3 + 0)%nat with (base + j * (3 * ng + 1) + 1 + 3 * k)%nat by lia. reflexivity.
Qed.
(** three components of a line: a Gaussian, a gamma and an exponential *)
Example C114_response_case : forall pm flagneg tau,
  calculate_tran false 3 flagneg (sample_row pm 13) (indx_line 3 0 3 (fun _ => 2%nat) 0) 3 1 tau [0; 2; 3]%nat
  = Ok (mixed_response 3 (fun k => nth k [0; 2; 3]%nat 0%nat) (stored (fun a => if flagneg then a else exp a) pm 3) tau).
Proof.
  intros pm flagneg tau.
  assert (H : has_line 1 (fun _ => 1%nat) 0 0) by (unfold has_line; lia).
  pose proof (C114_response 1 (fun _ => 1%nat) 3 0 false pm false 3 flagneg [0; 2; 3]%nat 0 0 tau H ltac:(auto) eq_refl) as E.
  etransitivity; [exact (E ltac:(repeat constructor; unfold drawn_shape; lia))|]. unfold mixed_response. cbn. destruct flagneg; reflexivity.
Qed.

(** *** The ratio mode *)
(** where a component of shape ty begins *)
Definition begins (ty : nat) (c : comp) : R := match ty with 2%nat => centre c - 2 * width c | _ => centre c - width c end.
Section Ratio.
Variable pm : arr.
Variable len base ng j : nat.
Variable flagneg : bool.
Variable tau : R.
Notation start := (base + j * (3 * ng + 1))%nat.
Hypothesis room : (start + (1 + 3 * ng) <= len)%nat.
Notation row := (sample_row pm len).
Definition ratio_stored (k : nat) : comp :=
  Comp (match k with O => 1 | S _ => exp (pm (start + 1 + 3 * k)%nat) end * exp (pm (start + 1)%nat))
    (pm (start + 1 + 3 * k + 1)%nat) (exp (pm (start + 1 + 3 * k + 2)%nat)).
Variable ty : nat.
Hypothesis shape : drawn_shape ty.
Hypothesis together : (ty <= 1)%nat \/ forall k, (k < ng)%nat -> begins ty (ratio_stored 0) <= tau <-> begins ty (ratio_stored k) <= tau.

Lemma mask_same b c v : (b <= tau <-> c <= tau) -> in_mask tau b v = in_mask tau c v.
Proof. intros H. unfold in_mask. destruct (Rle_dec b tau), (Rle_dec c tau); tauto. Qed.
Definition good_mask (k : nat) (mask : option R) : Prop := (ty <= 1)%nat \/ k = 0%nat \/ mask = Some (begins ty (ratio_stored 0)).
Lemma ratio_step k tran mask : (k < ng)%nat -> good_mask k mask ->
  exists mask', tran_ratio false row base ng (S j) tau k ty (tran, mask) = Ok (tran + MixSpec.shape_of ty (ratio_stored k) tau, mask') /\ good_mask (S k) mask'.
Proof.
  intros K G. unfold tran_ratio. rewrite !(col_at pm len base ng j room) by lia. cbn [bind]. rewrite !Nat.mul_0_r, !Nat.add_0_r.
  assert (A : (if (k =? 0)%nat then exp (pm (start + 1 + 3 * k)%nat) else exp (pm (start + 1 + 3 * k)%nat + pm (start + 1)%nat)) = area (ratio_stored k)).
  { unfold ratio_stored. cbn [area]. destruct k as [|k]; cbn [Nat.eqb]; [replace (start + 1 + 3 * 0)%nat with (start + 1)%nat by lia; symmetry; apply Rmult_1_l|apply exp_plus]. }
  rewrite A. set (c := pm (start + 1 + 3 * k + 1)%nat). set (w := exp (pm (start + 1 + 3 * k + 2)%nat)).
  assert (W : 0 < w) by apply exp_pos.
  assert (RS : ratio_stored k = Comp (area (ratio_stored k)) c w) by reflexivity.
  rewrite RS. cbn [area]. generalize (area (ratio_stored k)) as a. intros a. 
  assert (T : (2 <= ty)%nat -> begins ty (ratio_stored 0) <= tau <-> begins ty (ratio_stored k) <= tau).
  { intros T. destruct together as [|T']; [lia|]. apply T', K. }
  assert (M0 : (2 <= ty)%nat -> (if (k =? 0)%nat then Some (begins ty (ratio_stored k)) else mask) = Some (begins ty (ratio_stored 0))).
  { intros T2. destruct k as [|k]; [reflexivity|]. cbn [Nat.eqb]. destruct G as [G|[G|G]]; [lia|discriminate|exact G]. }
  assert (TY : ty = 0%nat \/ ty = 1%nat \/ ty = 2%nat \/ ty = 3%nat) by (unfold drawn_shape in shape; lia).
  destruct TY as [ET|[ET|[ET|ET]]]; rewrite ET in T, M0; rewrite ET; cbn [MixSpec.shape_of andb].
  - eexists. rewrite <- gauss_term_spec by exact W. split; [reflexivity|left; rewrite ET; lia].
  - eexists. rewrite <- hat_term_spec by exact W. split; [reflexivity|left; rewrite ET; lia].
  - change (c - 2 * w) with (begins 2 (ratio_stored k)). rewrite M0 by lia. eexists. rewrite <- gamma_term_spec by exact W. split.
    + change (c - 2 * w) with (begins 2 (ratio_stored k)). rewrite (mask_same _ _ _ (T ltac:(lia))). reflexivity.
    + right. right. rewrite ET. reflexivity.
  - change (c - w) with (begins 3 (ratio_stored k)). rewrite M0 by lia. eexists. rewrite <- exp_term_spec by exact W. split.
    + change (c - w) with (begins 3 (ratio_stored k)). rewrite (mask_same _ _ _ (T ltac:(lia))), Rmult_1_l. reflexivity.
    + right. right. rewrite ET. reflexivity.
Qed.
Lemma ratio_loop n : forall k tran mask, (k + n <= ng)%nat -> good_mask k mask ->
  exists mask', tran_loop false 1 flagneg row base ng (S j) tau k (repeat ty n) (tran, mask)
    = Ok (tran + sumn n (fun i => MixSpec.shape_of ty (ratio_stored (k + i)) tau), mask').
Proof.
  induction n as [|n IH]; intros k tran mask L G.
  - exists mask. cbn. rewrite Rplus_0_r. reflexivity.
  - destruct (ratio_step k tran mask) as (m1 & E1 & G1); [lia|exact G|].
    destruct (IH (S k) (tran + MixSpec.shape_of ty (ratio_stored k) tau) m1) as (m2 & E2); [lia|exact G1|].
    exists m2. cbn [repeat tran_loop]. rewrite E1. cbn [bind]. rewrite E2. f_equal. f_equal.
    assert (S0 : forall n (f : nat -> R), sumn (S n) f = f 0%nat + sumn n (fun i => f (S i))).
    { clear. induction n as [|n IH]; intros f; [cbn; lra|]. change (sumn (S (S n)) f) with (sumn (S n) f + f (S n)). rewrite IH. cbn [sumn]. lra. }
    rewrite S0, Nat.add_0_r, Rplus_assoc. f_equal. f_equal. apply sumn_ext. intros i I. f_equal. f_equal. lia.
Qed.
End Ratio.

(** The components of a line in the ratio mode: the later amplitudes relative to the
    first. *)
Definition ratio_comp (nset : nat) (nlset : nat -> nat) (ng uniform : nat) (uv : bool) (pm : arr) (i j k : nat) : comp :=
  Comp (match k with O => 1 | S _ => exp (pm (slot nset nlset ng uniform uv i j (Amp k))) end * exp (pm (slot nset nlset ng uniform uv i j (Amp 0))))
    (pm (slot nset nlset ng uniform uv i j (Centre k))) (exp (pm (slot nset nlset ng uniform uv i j (Width k)))).
(** The curve drawn in the ratio mode is the transfer function for Gaussians and
    top-hats, and for the other shapes at the lags at which all components have begun
    or none has. *)
Theorem C114_ratio_response : forall nset nlset ng uniform uniform_var pm flagneg ty i j tau,
  has_line nset nlset i j -> drawn_shape ty ->
  let c := ratio_comp nset nlset ng uniform uniform_var pm i j in
  (ty <= 1)%nat \/ (forall k, (k < ng)%nat -> begins ty (c 0%nat) <= tau <-> begins ty (c k) <= tau) ->
  calculate_tran false 1 flagneg (sample_row pm (num_params nset nlset ng uniform uniform_var))
    (indx_line (if uniform_var then 3 else 3 * nset)%nat uniform ng (fun s => S (nlset s)) i) ng (S j) tau (repeat ty ng)
  = Ok (response (MixSpec.shape_of ty) ng c tau).
Proof.
  intros nset nlset ng uniform uv pm flagneg ty i j tau H D c T.
  set (base := indx_line _ uniform ng _ i).
  pose proof (fun k => C114_columns nset nlset ng uniform uv i j k H) as C. cbv zeta in C. fold base in C.
  pose proof (slot_room nset nlset ng uniform uv i j H) as R.
  assert (S0 : (base + j * (3 * ng + 1) = slot nset nlset ng uniform uv i j SysErr)%nat).
  { destruct (C 0%nat) as (C0 & _). unfold column in C0. unfold slot, slot_at in *. cbn [offset] in *. lia. }
  assert (RC : forall k, ratio_stored pm base ng j k = c k).
  { intros k. unfold ratio_stored, c, ratio_comp. destruct (C k) as (C0 & C1 & C2). destruct (C 0%nat) as (Z0 & _). rewrite <- C0, <- C1, <- C2, <- Z0. unfold column.
    f_equal; [|f_equal; lia|do 2 f_equal; lia].
    replace (base + (S j - 1) * (ng * 3 + 1) + 1 + k * 3 + 0)%nat with (base + j * (3 * ng + 1) + 1 + 3 * k)%nat by lia.
    replace (base + (S j - 1) * (ng * 3 + 1) + 1 + 0 * 3 + 0)%nat with (base + j * (3 * ng + 1) + 1)%nat by lia. reflexivity. }
  destruct (ratio_loop pm (num_params nset nlset ng uniform uv) base ng j flagneg tau ltac:(lia) ty D) with (n := ng) (k := 0%nat) (tran := 0) (mask := @None Rdefinitions.R) as (m & E).
  - destruct T as [T|T]; [left; exact T|right]. intros k K. rewrite !RC. apply T, K.
  - lia.
  - right. left. reflexivity.
  - unfold calculate_tran. rewrite E. cbn [bind fst]. f_equal. rewrite Rplus_0_l. unfold response. apply sumn_ext. intros k K. rewrite Nat.add_0_l, RC. reflexivity.
Qed.
(** lags 2 and 12, all other parameters zero: amplitudes and widths 1 *)
Definition two_lags : arr := fun s => if (s =? 5)%nat then 2 else if (s =? 8)%nat then 12 else 0.
Example C114_ratio_response_case :
  calculate_tran false 1 false (sample_row two_lags 10) (indx_line 3 0 2 (fun _ => 2%nat) 0) 2 1 20 [2; 2]%nat
  = Ok (response gamma2 2 (ratio_comp 1 (fun _ => 1%nat) 2 0 false two_lags 0 0) 20).
Proof.
  assert (H : has_line 1 (fun _ => 1%nat) 0 0) by (unfold has_line; lia).
  refine (C114_ratio_response 1 (fun _ => 1%nat) 2 0 false two_lags false 2 0 0 20 H _ _); [unfold drawn_shape; lia|].
  right. intros k K. destruct k as [|[|k]]; [| |lia]; unfold begins, ratio_comp, two_lags; cbn; rewrite exp_0; lra.
Qed.

Lemma two_lags_gamma tau : 0 <= tau ->
  calculate_tran false 1 false (sample_row two_lags 10) 3 2 1 tau [2; 2]%nat = Ok (tau * exp (- tau) + (tau - 10) * exp (10 - tau)).
Proof.
  intros T. unfold calculate_tran. cbn. unfold two_lags, gamma_term, in_mask. cbn. rewrite exp_0. 
  destruct (Rle_dec _ _) as [|N]; [|exfalso; apply N; lra]. f_equal.
  replace (- (tau - (2 - 2 * 1)) / 1) with (- tau) by lra. replace (- (tau - (12 - 2 * 1)) / 1) with (10 - tau) by lra. rewrite Rplus_0_r, exp_0. field.
Qed.
(** Gamma shapes at the lags 2 and 12: at lag 5 the curve drawn is below zero, though
    no transfer function of that mode is. *)
Theorem C114_ratio_response_refuted : exists v,
  calculate_tran false 1 false (sample_row two_lags 10) (indx_line 3 0 2 (fun _ => 2%nat) 0) 2 1 5 [2; 2]%nat = Ok v
  /\ v < 0 /\ (forall tau, 0 <= response gamma2 2 (ratio_comp 1 (fun _ => 1%nat) 2 0 false two_lags 0 0) tau).
Proof.
  eexists. split; [apply two_lags_gamma; lra|]. split.
  - assert (exp (Ropp 5) < exp (10 - 5)) by (apply exp_increasing; lra). pose proof (exp_pos (Ropp 5)). lra.
  - intros tau. unfold response. cbn [sumn]. 
    assert (P : forall k, 0 <= gamma2 (ratio_comp 1 (fun _ => 1%nat) 2 0 false two_lags 0 0 k) tau).
    { intros k. unfold gamma2. destruct (Rle_dec _ _) as [L|]; [|lra].
      set (c := ratio_comp _ _ _ _ _ _ _ _ k) in *.
      assert (A : 0 <= area c). { unfold c, ratio_comp. cbn [area]. apply Rmult_le_pos; [destruct k; [lra|apply Rlt_le, exp_pos]|apply Rlt_le, exp_pos]. }
      assert (W : 0 < width c) by apply exp_pos.
      apply Rmult_le_pos; [|apply Rlt_le, exp_pos]. apply Rmult_le_pos; [apply Rmult_le_pos; lra|].
      apply Rlt_le, Rinv_0_lt_compat, Rmult_lt_0_compat; assumption. }
    pose proof (P 0%nat). pose proof (P 1%nat). lra.
Qed.
(** The plot of the decomposition draws another curve for exponentials in the ratio
    mode, also where both have begun: it is not the one of the other plot. *)
Theorem C114_decomposition_response_refuted : exists v,
  calculate_tran true 1 false (sample_row two_lags 10) (indx_line 3 0 2 (fun _ => 2%nat) 0) 2 1 20 [3; 3]%nat = Ok v
  /\ response exponential 2 (ratio_comp 1 (fun _ => 1%nat) 2 0 false two_lags 0 0) 20 < v.
Proof.
  assert (E : calculate_tran true 1 false (sample_row two_lags 10) 3 2 1 20 [3; 3]%nat = Ok (19 * exp (Ropp 19) + exp (Ropp 9))).
  { unfold calculate_tran. cbn. unfold two_lags, exp_term, in_mask. cbn. rewrite exp_0.
    destruct (Rle_dec _ _) as [|N]; [|exfalso; apply N; lra]. f_equal.
    replace (- (20 - (2 - 1)) / 1) with (Ropp 19) by lra. replace (- (20 - (12 - 1)) / 1) with (Ropp 9) by lra. rewrite Rplus_0_r, exp_0. field. }
  eexists. split; [exact E|]. unfold response. cbn [sumn]. unfold exponential, ratio_comp, two_lags. cbn. rewrite exp_0.
  destruct (Rle_dec _ _); [|lra]. destruct (Rle_dec _ _); [|lra].
  replace (- (20 - (2 - 1)) / 1) with (Ropp 19) by lra. replace (- (20 - (12 - 1)) / 1) with (Ropp 9) by lra. pose proof (exp_pos (Ropp 19)). lra.
Qed.
Print Assumptions C114_lags.
Print Assumptions C114_widths.
Print Assumptions C114_refused.
Print Assumptions C114_lags_refuted.
Print Assumptions C114_widths_refuted.
Print Assumptions C114_photometric_refuted.
Print Assumptions C114_columns.
Print Assumptions C114_decomposition_refuted.
Print Assumptions C114_decomposition_one.
Print Assumptions C114_response.
Print Assumptions C114_ratio_response.
Print Assumptions C114_ratio_response_refuted.
Print Assumptions C114_decomposition_response_refuted.
