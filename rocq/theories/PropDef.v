(** C112: what the sampler does when no functions are handed over. *)
From Coq Require Import Reals ZArith List Bool Arith Lia Lra.
From Coquelicot Require Import Coquelicot.
From Verif Require Import CPrelude ListLemmas LogXModel LogXProofs BalanceProofs DefModel.
Import ListNotations.
Open Scope R_scope.

(** The three kinds of prior, and the density of each on the range from a to b (that of
    the Gaussian up to a constant factor). *)
Inductive kind := Uniform | Gaussian | Logarithmic.
Definition code (k : kind) : Z := match k with Uniform => 0 | Gaussian => 1 | Logarithmic => 2 end.
Definition density (k : kind) (a b mean sd x : R) : R :=
  match k with
  | Uniform => / (b - a)
  | Logarithmic => / (x * ln (b / a))
  | Gaussian => exp (- (x - mean) ^ 2 / (2 * sd ^ 2))
  end.
(** One parameter: its prior, the range and, for a Gaussian, mean and standard deviation. *)
Record par := Par { p_kind : kind; p_lo : R; p_hi : R; p_mean : R; p_sd : R }.
Definition proper (p : par) : Prop :=
  p_lo p < p_hi p /\ (p_kind p = Logarithmic -> 0 < p_lo p) /\ (p_kind p = Gaussian -> 0 < p_sd p).
(** The arrays that hold such parameters. *)
Definition ranges_of (ps : list par) : list R := flat_map (fun p => [p_lo p; p_hi p]) ps.
Definition types_of (ps : list par) : list Z := map (fun p => code (p_kind p)) ps.
Definition info_of (ps : list par) : list R := flat_map (fun p => [p_mean p; p_sd p]) ps.

Lemma flat_pair {A} (f g : A -> R) (l : list A) : forall i p, nth_error l i = Some p ->
  get (flat_map (fun p => [f p; g p]) l) (i * 2 + 0) = Ok (f p) /\ get (flat_map (fun p => [f p; g p]) l) (i * 2 + 1) = Ok (g p).
Proof.
  induction l as [|q l IH]; intros [|i] p H; try discriminate.
  - injection H as ->. split; reflexivity.
  - specialize (IH i p H). replace (S i * 2 + 0)%nat with (S (S (i * 2 + 0))) by lia. replace (S i * 2 + 1)%nat with (S (S (i * 2 + 1))) by lia. exact IH.
Qed.
Lemma types_get ps i p : nth_error ps i = Some p -> get (types_of ps) i = Ok (code (p_kind p)).
Proof. intros H. unfold get, types_of. rewrite nth_error_map, H. reflexivity. Qed.
Lemma ranges_get ps i p : nth_error ps i = Some p -> get (ranges_of ps) (i * 2 + 0) = Ok (p_lo p) /\ get (ranges_of ps) (i * 2 + 1) = Ok (p_hi p).
Proof. apply (flat_pair p_lo p_hi). Qed.
Lemma info_get ps i p : nth_error ps i = Some p -> get (info_of ps) (i * 2 + 0) = Ok (p_mean p) /\ get (info_of ps) (i * 2 + 1) = Ok (p_sd p).
Proof. apply (flat_pair p_mean p_sd). Qed.

(** ** Drawing from the prior. *)
(** The value of one parameter, from a standard normal number g and a number u of [0,1). *)
Definition drawn (p : par) (g u x : R) : Prop :=
  p_lo p <= x < p_hi p /\
  match p_kind p with
  | Gaussian => exists k : Z, x = p_mean p + p_sd p * g + IZR k * (p_hi p - p_lo p)
  | _ => forall t, p_lo p <= t <= p_hi p -> (x <= t <-> u <= RInt (density (p_kind p) (p_lo p) (p_hi p) (p_mean p) (p_sd p)) (p_lo p) t)
  end.

Lemma RInt_log a b t : 0 < a -> a < b -> a <= t -> RInt (fun x => / (x * ln (b / a))) a t = (ln t - ln a) / (ln b - ln a).
Proof.
  intros Ha Hab Ht. assert (L : ln (b / a) = ln b - ln a) by (apply ln_div; lra).
  assert (P : ln a < ln b) by (apply ln_increasing; lra).
  apply is_RInt_unique. replace ((ln t - ln a) / (ln b - ln a)) with (minus (ln t / (ln b - ln a)) (ln a / (ln b - ln a))).
  2:{ unfold minus, plus, opp; simpl. field. lra. }
  apply (is_RInt_derive (fun x => ln x / (ln b - ln a))).
  - intros x Hx. rewrite Rmin_left in Hx by lra. auto_derive; [lra|]. rewrite L. field. lra.
  - intros x Hx. rewrite Rmin_left in Hx by lra. apply (ex_derive_continuous (fun x => / (x * ln (b / a)))).
    auto_derive. rewrite L. apply Rmult_integral_contrapositive. lra.
Qed.

Lemma draw_ok ps i p g u : nth_error ps i = Some p -> proper p -> 0 <= u < 1 ->
  exists x, draw (ranges_of ps) (types_of ps) (info_of ps) i g u = Ok x /\ drawn p g u x.
Proof.
  intros H (R1 & R2 & R3) Hu. unfold draw. rewrite (types_get _ _ _ H).
  destruct (ranges_get _ _ _ H) as [Ea Eb]. destruct (info_get _ _ _ H) as [Em Es].
  unfold drawn. destruct (p_kind p); cbn [bind code Z.eqb GAUSSIAN LOG Pos.eqb]; rewrite ?Es; cbn [bind]; rewrite ?Em; cbn [bind]; rewrite Ea; cbn [bind]; rewrite Eb; cbn [bind].
  - exists (p_lo p + u * (p_hi p - p_lo p)). split; [reflexivity|]. split; [split; nra|].
    intros t Ht. unfold density. rewrite RInt_const. change (scal (t - p_lo p) (/ (p_hi p - p_lo p))) with ((t - p_lo p) / (p_hi p - p_lo p)).
    split; intros Q.
    + apply Rmult_le_reg_r with (p_hi p - p_lo p); [lra|]. unfold Rdiv. rewrite Rmult_assoc, Rinv_l by lra. lra.
    + apply Rmult_le_compat_r with (r := p_hi p - p_lo p) in Q; [|lra]. unfold Rdiv in Q. rewrite Rmult_assoc, Rinv_l in Q by lra. lra.
  - destruct (wrap_spec (g * p_sd p + p_mean p) _ _ R1) as (r & E & Hr & k & Hk).
    exists r. split; [exact E|]. split; [exact Hr|]. exists (- k)%Z. rewrite opp_IZR. lra.
  - specialize (R2 eq_refl). assert (P : ln (p_lo p) < ln (p_hi p)) by (apply ln_increasing; lra).
    eexists. split; [reflexivity|]. split.
    + split.
      * rewrite <- (exp_ln (p_lo p)) at 1 by lra. destruct (Req_dec u 0) as [->|]; [right; f_equal; lra|left; apply exp_increasing; nra].
      * rewrite <- (exp_ln (p_hi p)) at 2 by lra. apply exp_increasing. nra.
    + intros t Ht. unfold density. rewrite RInt_log by lra.
      assert (Q : exp (ln (p_lo p) + u * (ln (p_hi p) - ln (p_lo p))) <= t <-> ln (p_lo p) + u * (ln (p_hi p) - ln (p_lo p)) <= ln t).
      { rewrite <- (exp_ln t) at 1 by lra. split; intros Q.
        - destruct (Rle_or_lt (ln (p_lo p) + u * (ln (p_hi p) - ln (p_lo p))) (ln t)) as [|C]; [assumption|]. apply exp_increasing in C. lra.
        - destruct Q as [Q|Q]; [left; apply exp_increasing, Q|right; rewrite Q; reflexivity]. }
      rewrite Q. split; intros V.
      * apply Rmult_le_reg_r with (ln (p_hi p) - ln (p_lo p)); [lra|]. unfold Rdiv. rewrite Rmult_assoc, Rinv_l by lra. lra.
      * apply Rmult_le_compat_r with (r := ln (p_hi p) - ln (p_lo p)) in V; [|lra]. unfold Rdiv in V. rewrite Rmult_assoc, Rinv_l in V by lra. lra.
Qed.

Lemma draws_ok ps G U : List.Forall proper ps -> (forall i, 0 <= U i < 1) ->
  forall n i pm, (i + n <= length ps)%nat -> length pm = length ps ->
  exists pm', draws (ranges_of ps) (types_of ps) (info_of ps) G U n i pm = Ok pm' /\ length pm' = length ps /\
    (forall j, (j < i)%nat -> nth_error pm' j = nth_error pm j) /\
    (forall j p, (i <= j < i + n)%nat -> nth_error ps j = Some p -> exists x, nth_error pm' j = Some x /\ drawn p (G j) (U j) x).
Proof.
  intros F HU. induction n as [|n IH]; intros i pm Hi Hl.
  - exists pm. repeat split; auto. intros; lia.
  - destruct (nth_error ps i) as [p|] eqn:Ep; [|apply nth_error_None in Ep; lia].
    assert (Pp : proper p) by (eapply Forall_forall in F; [exact F|eapply nth_error_In; exact Ep]).
    destruct (draw_ok ps i p (G i) (U i) Ep Pp (HU i)) as (x & Ex & Dx).
    destruct (set_nth_some _ pm i x) as [pm1 E1]; [lia|].
    pose proof (set_nth_length _ _ _ _ _ E1) as L1.
    destruct (IH (S i) pm1) as (pm' & E' & L' & B & A); [lia|congruence|].
    exists pm'. split; [|split; [exact L'|split]].
    + cbn [draws]. rewrite Ex. cbn [bind]. unfold put. rewrite E1. exact E'.
    + intros j Hj. rewrite B by lia. apply (set_nth_neq _ _ _ _ _ _ E1). lia.
    + intros j q Hj Hq. destruct (Nat.eq_dec j i) as [->|Nj].
      * rewrite Ep in Hq. injection Hq as <-. exists x. split; [|exact Dx]. rewrite B by lia. apply (set_nth_eq _ _ _ _ _ E1).
      * apply A; [lia|exact Hq].
Qed.

(** Every parameter drawn lies in its range.  With a uniform or logarithmic prior it is at
    most t just when u is at most the integral of the density up to t; with a Gaussian prior
    it is the Gaussian number moved by a whole number of ranges. *)
Theorem C112_draw : forall ps G U pm, List.Forall proper ps -> (forall i, 0 <= U i < 1) -> length pm = length ps ->
  exists pm', dnest_from_prior (length ps) (ranges_of ps) (types_of ps) (info_of ps) G U pm = Ok pm' /\ length pm' = length ps /\
    forall i p, nth_error ps i = Some p -> exists x, nth_error pm' i = Some x /\ drawn p (G i) (U i) x.
Proof.
  intros ps G U pm F HU L. destruct (draws_ok ps G U F HU (length ps) 0 pm ltac:(lia) L) as (pm' & E & L' & _ & A).
  exists pm'. split; [exact E|]. split; [exact L'|]. intros i p H. apply A; [|exact H]. apply nth_error_lt in H. lia.
Qed.
Print Assumptions C112_draw.

(** ** Steps. *)
(** Parameter [which] moved from x to y, the others kept; logH is the logarithm of the ratio
    of the densities. *)
Definition stepped (ps : list par) (which : nat) (step : R) (pm : list R) (r : list R * R) : Prop :=
  exists p x y, nth_error ps which = Some p /\ nth_error pm which = Some x /\ nth_error (fst r) which = Some y /\
    (forall j, j <> which -> nth_error (fst r) j = nth_error pm j) /\ length (fst r) = length pm /\
    p_lo p <= y < p_hi p /\ (exists k : Z, y = x + step + IZR k * (p_hi p - p_lo p)) /\
    snd r = ln (density (p_kind p) (p_lo p) (p_hi p) (p_mean p) (p_sd p) y / density (p_kind p) (p_lo p) (p_hi p) (p_mean p) (p_sd p) x).
(** all parameters in their ranges *)
Definition within (ps : list par) (pm : list R) : Prop := Forall2 (fun p x => p_lo p <= x < p_hi p) ps pm.

Lemma within_nth ps pm i p : within ps pm -> nth_error ps i = Some p -> exists x, nth_error pm i = Some x /\ p_lo p <= x < p_hi p.
Proof.
  intros W. revert i. induction W as [|q x l m Hx W IH]; intros [|i] H; try discriminate.
  - injection H as <-. exists x. auto.
  - apply IH, H.
Qed.
Lemma within_set ps pm i p x pm' : within ps pm -> nth_error ps i = Some p -> p_lo p <= x < p_hi p -> set_nth i x pm = Some pm' -> within ps pm'.
Proof.
  intros W. revert i pm'. induction W as [|q y l m Hy W IH]; intros [|i] pm' H Hx E; try discriminate; cbn [set_nth] in E.
  - injection E as <-. injection H as ->. constructor; assumption.
  - destruct (set_nth i x m) as [m'|] eqn:Em; [|discriminate]. injection E as <-. constructor; [assumption|]. eapply IH; eauto.
Qed.

Lemma ratio_ln p x y : proper p -> p_lo p <= x < p_hi p -> p_lo p <= y < p_hi p ->
  ln (density (p_kind p) (p_lo p) (p_hi p) (p_mean p) (p_sd p) y / density (p_kind p) (p_lo p) (p_hi p) (p_mean p) (p_sd p) x) =
  match p_kind p with Uniform => 0 | Logarithmic => 0 - - ln x + - ln y
  | Gaussian => 0 - - (1 / 2) * ((x - p_mean p) / p_sd p) ^ 2 + - (1 / 2) * ((y - p_mean p) / p_sd p) ^ 2 end.
Proof.
  intros (R1 & R2 & R3) Hx Hy. destruct (p_kind p); unfold density.
  - unfold Rdiv. rewrite Rinv_involutive by lra. rewrite Rinv_l by lra. apply ln_1.
  - specialize (R3 eq_refl). rewrite ln_div by apply exp_pos. rewrite !ln_exp. field. lra.
  - specialize (R2 eq_refl). assert (P : ln (p_lo p) < ln (p_hi p)) by (apply ln_increasing; lra).
    assert (L : 0 < ln (p_hi p / p_lo p)) by (rewrite ln_div by lra; lra).
    replace (/ (y * ln (p_hi p / p_lo p)) / / (x * ln (p_hi p / p_lo p))) with (x / y) by (field; repeat split; lra).
    rewrite ln_div by lra. lra.
Qed.

Lemma move_ok ps which h w pm : List.Forall proper ps -> within ps pm -> (which < length ps)%nat ->
  exists r, move (ranges_of ps) (types_of ps) (info_of ps) which h w pm = Ok r /\ stepped ps which (h * w) pm r /\ within ps (fst r) /\
    exists l, move (ranges_of ps) (types_of ps) (info_of ps) which (- h) w (fst r) = Ok (pm, l) /\ l = - snd r.
Proof.
  intros F W Hw. destruct (nth_error ps which) as [p|] eqn:Ep; [|apply nth_error_None in Ep; lia].
  assert (Pp : proper p) by (eapply Forall_forall in F; [exact F|eapply nth_error_In; exact Ep]).
  destruct (within_nth _ _ _ _ W Ep) as (x & Ex & Hx).
  destruct Pp as (R1 & R2 & R3) eqn:EP. clear EP.
  destruct (wrap_spec (x + h * w) _ _ R1) as (v & Ev & Hv & k & Hk).
  destruct (wrap_back x (h * w) _ _ v Hx Ev) as [_ Eb].
  destruct (set_nth_some _ pm which v) as [pm1 E1]; [eapply nth_error_lt, Ex|].
  pose proof (set_nth_length _ _ _ _ _ E1) as L1. pose proof (set_nth_eq _ _ _ _ _ E1) as S1.
  assert (E2 : set_nth which x pm1 = Some pm).
  { clear -E1 Ex. revert which pm1 E1 Ex. induction pm as [|y pm IH]; intros [|i] pm1 E1 Ex; try discriminate; cbn [set_nth] in *.
    - injection E1 as <-. injection Ex as <-. reflexivity.
    - destruct (set_nth i v pm) as [q|] eqn:Q; [|discriminate]. injection E1 as <-. cbn [set_nth]. rewrite (IH i q Q Ex). reflexivity. }
  pose proof (ratio_ln p x v (conj R1 (conj R2 R3)) Hx Hv) as RL.
  set (H0 := match p_kind p with Uniform => 0 | Logarithmic => 0 - - ln x + - ln v
    | Gaussian => 0 - - (1 / 2) * ((x - p_mean p) / p_sd p) ^ 2 + - (1 / 2) * ((v - p_mean p) / p_sd p) ^ 2 end) in *.
  destruct (ranges_get _ _ _ Ep) as [Ea Ebb]. destruct (info_get _ _ _ Ep) as [Em Es].
  exists (pm1, H0). split; [|split; [|split]].
  - unfold move. rewrite (types_get _ _ _ Ep). cbn [bind]. unfold get at 1. rewrite Ex. cbn [bind]. rewrite Ea. cbn [bind]. rewrite Ebb. cbn [bind].
    unfold gauss, H0. destruct (p_kind p); cbn [code Z.eqb UNIFORM LOG Pos.eqb].
    + rewrite Ev. cbn [bind]. unfold put. rewrite E1. reflexivity.
    + rewrite Em. cbn [bind]. rewrite Es. cbn [bind]. rewrite Ev. cbn [bind]. unfold put. rewrite E1. cbn [bind]. reflexivity.
    + rewrite Ev. cbn [bind]. unfold put. rewrite E1. reflexivity.
  - exists p, x, v. cbn [fst snd]. repeat split; auto; try lra.
    + intros j Hj. apply (set_nth_neq _ _ _ _ _ _ E1 Hj).
    + exists (- k)%Z. rewrite opp_IZR. lra.
  - cbn [fst]. eapply within_set; eauto.
  - cbn [fst snd]. eexists. split.
    + unfold move. rewrite (types_get _ _ _ Ep). cbn [bind]. unfold get at 1. rewrite S1. cbn [bind]. rewrite Ea. cbn [bind]. rewrite Ebb. cbn [bind].
      replace (v + - h * w) with (v + - (h * w)) by lra.
      instantiate (1 := - H0). unfold gauss, H0. destruct (p_kind p); cbn [code Z.eqb UNIFORM LOG Pos.eqb].
      * rewrite Eb. cbn [bind]. unfold put. rewrite E2. cbn [bind]. do 2 f_equal. lra.
      * rewrite Em. cbn [bind]. rewrite Es. cbn [bind]. rewrite Eb. cbn [bind]. unfold put. rewrite E2. cbn [bind]. do 2 f_equal. lra.
      * rewrite Eb. cbn [bind]. unfold put. rewrite E2. cbn [bind]. do 2 f_equal. lra.
    + reflexivity.
Qed.

(** A step of [h] ranges: nothing is read out of bounds, one parameter moves and stays in its
    range, and logH is the logarithm of the ratio of the prior densities; the opposite number
    [-h] undoes the step, with the opposite logH. *)
Theorem C112_step : forall ps which h pm, List.Forall proper ps -> within ps pm -> (which < length ps)%nat ->
  exists p r, nth_error ps which = Some p /\
    dnest_perturb (ranges_of ps) (types_of ps) (info_of ps) which h pm = Ok r /\
    stepped ps which (h * (p_hi p - p_lo p)) pm r /\ within ps (fst r) /\
    dnest_perturb (ranges_of ps) (types_of ps) (info_of ps) which (- h) (fst r) = Ok (pm, - snd r).
Proof.
  intros ps which h pm F W Hw. destruct (nth_error ps which) as [p|] eqn:Ep; [|apply nth_error_None in Ep; lia].
  destruct (ranges_get _ _ _ Ep) as [Ea Eb].
  destruct (move_ok ps which h (p_hi p - p_lo p) pm F W Hw) as (r & E & S & W' & l & E' & ->).
  exists p, r. split; [reflexivity|]. unfold dnest_perturb, whole. rewrite Eb. cbn [bind]. rewrite Ea. cbn [bind]. auto.
Qed.
Print Assumptions C112_step.

(** ** Steps with the limits of the levels. *)
(** The limits of all levels, one pair of numbers for each level and parameter, as stored. *)
Definition stored_limits (lims : list (list (R * R))) : list R := flat_map (flat_map (fun ab => [fst ab; snd ab])) lims.
Lemma stored_get num lims : List.Forall (fun row => length row = num) lims -> forall j i row ab,
  nth_error lims j = Some row -> nth_error row i = Some ab ->
  get (stored_limits lims) (j * num * 2 + i * 2) = Ok (fst ab) /\ get (stored_limits lims) (j * num * 2 + i * 2 + 1) = Ok (snd ab).
Proof.
  assert (L2 : forall row : list (R * R), length (flat_map (fun ab => [fst ab; snd ab]) row) = (length row * 2)%nat).
  { induction row as [|ab row IH]; [reflexivity|]. simpl. rewrite IH. lia. }
  intros F. induction F as [|row0 lims H0 F IH]; intros [|j] i row ab Hj Hi; try discriminate.
  - injection Hj as ->. unfold stored_limits. cbn [flat_map].
    pose proof (nth_error_lt _ _ _ _ Hi) as Li. destruct (flat_pair fst snd row i ab Hi) as [E1 E2].
    replace (0 * num * 2 + i * 2)%nat with (i * 2 + 0)%nat by lia. replace (i * 2 + 0 + 1)%nat with (i * 2 + 1)%nat by lia.
    unfold get in *. rewrite !nth_error_app1 by (rewrite L2; lia). split; assumption.
  - destruct (IH j i row ab Hj Hi) as [E1 E2]. unfold stored_limits, get in *. cbn [flat_map].
    replace (S j * num * 2 + i * 2)%nat with (length (flat_map (fun ab => [fst ab; snd ab]) row0) + (j * num * 2 + i * 2))%nat by (rewrite L2; nia).
    replace (length (flat_map (fun ab => [fst ab; snd ab]) row0) + (j * num * 2 + i * 2) + 1)%nat
      with (length (flat_map (fun ab => [fst ab; snd ab]) row0) + (j * num * 2 + i * 2 + 1))%nat by lia.
    rewrite !nth_error_app2 by lia. rewrite !Nat.add_comm with (n := length _), !Nat.add_sub. split; assumption.
Qed.
(** The width: let k be the lesser of the particle's level minus 5 and the number of levels
    minus 15.  From k = 1 on it is that of the limits of level k - 1, else the range. *)
Definition level_width (lims : list (list (R * R))) (level size : Z) (which : nat) (p : par) (w : R) : Prop :=
  let k := Z.min (level - 5) (size - 15) in
  ((k <= 0)%Z /\ w = p_hi p - p_lo p) \/
  ((1 <= k)%Z /\ exists row a b, nth_error lims (Z.to_nat (k - 1)) = Some row /\ nth_error row which = Some (a, b) /\ w = b - a).

Theorem C112_level_step : forall ps lims level size which h pm, List.Forall proper ps -> within ps pm -> (which < length ps)%nat ->
  (0 <= level < size)%Z -> (size <= Z.of_nat (length lims))%Z -> List.Forall (fun row => length row = length ps) lims ->
  exists p w r, nth_error ps which = Some p /\ level_width lims level size which p w /\
    dnest_perturb_limit (length ps) (ranges_of ps) (types_of ps) (info_of ps) (Some (stored_limits lims)) level size which h pm = Ok r /\
    stepped ps which (h * w) pm r /\ within ps (fst r) /\
    dnest_perturb_limit (length ps) (ranges_of ps) (types_of ps) (info_of ps) (Some (stored_limits lims)) level size which (- h) (fst r) = Ok (pm, - snd r).
Proof.
  intros ps lims level size which h pm F W Hw Hl Hs FL. destruct (nth_error ps which) as [p|] eqn:Ep; [|apply nth_error_None in Ep; lia].
  destruct (ranges_get _ _ _ Ep) as [Ea Eb].
  assert (K : exists w, level_width lims level size which p w /\
    forall (f : R -> outcome (list R * R)), (w0 <- (if (0 <? (if size - 15 <? level - 5 then size - 15 else level - 5))%Z then
          l1 <- get (stored_limits lims) (Z.to_nat ((if size - 15 <? level - 5 then size - 15 else level - 5) - 1)%Z * length ps * 2 + which * 2) ;;
          l2 <- get (stored_limits lims) (Z.to_nat ((if size - 15 <? level - 5 then size - 15 else level - 5) - 1)%Z * length ps * 2 + which * 2 + 1) ;; Ok (l2 - l1)
        else whole (ranges_of ps) which) ;; f w0) = f w).
  { replace (if (size - 15 <? level - 5)%Z then (size - 15)%Z else (level - 5)%Z) with (Z.min (level - 5) (size - 15)) by (destruct (Z.ltb_spec (size - 15) (level - 5)); lia).
    unfold level_width. set (k := Z.min (level - 5) (size - 15)). assert (Hk : (k <= size - 15)%Z) by (unfold k; lia). clearbody k.
    destruct (Z.ltb_spec 0 k) as [P|P].
    - destruct (nth_error lims (Z.to_nat (k - 1))) as [row|] eqn:Er; [|apply nth_error_None in Er; lia].
      assert (Lr : length row = length ps) by (eapply (proj1 (Forall_forall _ _) FL); eapply nth_error_In; exact Er).
      destruct (nth_error row which) as [[a b]|] eqn:Ew; [|apply nth_error_None in Ew; lia].
      destruct (stored_get _ _ FL _ _ _ _ Er Ew) as [G1 G2].
      exists (b - a). split.
      + right. split; [lia|]. exists row, a, b. auto.
      + intros f. rewrite G1. cbn [bind]. rewrite G2. reflexivity.
    - exists (p_hi p - p_lo p). split; [left; split; [lia|reflexivity]|].
      intros f. unfold whole. rewrite Eb. cbn [bind]. rewrite Ea. reflexivity. }
  destruct K as (w & Kw & Kf).
  destruct (move_ok ps which h w pm F W Hw) as (r & E & S & W' & l & E' & ->).
  exists p, w, r. split; [reflexivity|]. split; [exact Kw|]. unfold dnest_perturb_limit. cbv zeta. rewrite !Kf. auto.
Qed.
Print Assumptions C112_level_step.

(** A type other than the three is drawn as uniform but moved as Gaussian: with mean 0 and
    deviation 1 the step from 0 to 1/2 has logH = -1/8, not 0. *)
Theorem C112_type_refuted : exists ty, ty <> UNIFORM /\ ty <> GAUSSIAN /\ ty <> LOG /\
  (forall g u, draw [0; 1] [ty] [0; 1] 0 g u = Ok (0 + u * (1 - 0))) /\
  exists r, dnest_perturb [0; 1] [ty] [0; 1] 0 (1 / 2) [0] = Ok r /\ fst r = [1 / 2] /\ snd r = - (1 / 8).
Proof.
  exists 3%Z. repeat split; try discriminate. unfold dnest_perturb, whole, move. cbn [get nth_error Nat.mul Nat.add bind Z.eqb UNIFORM LOG Pos.eqb gauss].
  replace (0 + 1 / 2 * (1 - 0)) with (1 / 2) by lra. rewrite (wrap_id (1 / 2) 0 1) by lra. cbn [bind put set_nth gauss get nth_error Nat.mul Nat.add].
  eexists. split; [reflexivity|]. split; [reflexivity|]. cbn [snd]. field.
Qed.
Print Assumptions C112_type_refuted.

(** ** The functions of the library that are put in. *)
(** Whatever the set: it ends in an exit exactly when there is no likelihood.  Otherwise
    afterwards no pointer is NULL, those of the caller are kept, the two other likelihoods
    default to the first and the rest to the functions of the library. *)
Theorem C112_filled : forall flag f,
  (log_likelihoods_cal f = None -> dnest_check_fptrset flag f = Exit) /\
  (forall like, log_likelihoods_cal f = Some like -> exists f', dnest_check_fptrset flag f = Ok f' /\
    forall (field : fset -> option fn) d,
      In (field, d) [(log_likelihoods_cal, like); (log_likelihoods_cal_initial, like); (log_likelihoods_cal_restart, like);
        (from_prior, D_from_prior); (print_particle, D_print_particle); (read_particle, D_read_particle);
        (perturb, if flag then D_perturb_limit else D_perturb);
        (restart_action, D_restart_action); (accept_action, D_accept_action); (kill_action, D_kill_action)] ->
      field f' = match field f with Some g => Some g | None => Some d end).
Proof.
  intros flag f. unfold dnest_check_fptrset. split; [intros ->; reflexivity|]. intros like E. rewrite E.
  eexists. split; [reflexivity|]. intros field d H. destruct H as [H|[H|[H|[H|[H|[H|[H|[H|[H|[H|[]]]]]]]]]]];
    injection H as <- <-; cbn; rewrite ?E; reflexivity.
Qed.
Print Assumptions C112_filled.

(** The option -l of a call does not choose the function that proposes steps: without one
    of the caller, it is chosen by the option of the call before. *)
Definition no_perturb (f : fset) : Prop := perturb f = None /\ log_likelihoods_cal f <> None.
Lemma last_indep {A} (l : list A) : forall x d e, last (x :: l) d = last (x :: l) e.
Proof. induction l as [|y l IH]; intros x d e; [reflexivity|]. cbn [last] in *. apply (IH y). Qed.
Lemma calls_flag l : List.Forall (fun c => log_likelihoods_cal (fst c) <> None) l -> forall f opt_l g, no_perturb f ->
  exists s, calls l f opt_l g = Ok s /\
    perturb (fst s) = Some (if last (map snd l) (flag_limits g) then D_perturb_limit else D_perturb) /\ flag_limits (snd s) = opt_l.
Proof.
  induction 1 as [|[f1 l1] l H F IH]; intros f opt_l g [Hp Hl].
  - cbn. unfold enter, dnest_check_fptrset. destruct (log_likelihoods_cal f) as [k|] eqn:E; [|congruence].
    eexists. split; [reflexivity|]. cbn. rewrite Hp. split; reflexivity.
  - cbn [calls fst] in *. unfold enter at 1, dnest_check_fptrset at 1. destruct (log_likelihoods_cal f1) as [k|] eqn:E; [|congruence].
    cbn [bind snd]. destruct (IH f opt_l (leave (Glob l1 (if l1 then Live else limits_ptr g))) (conj Hp Hl)) as (s & Es & Ps & Fs).
    exists s. split; [exact Es|]. split; [|exact Fs]. rewrite Ps. cbn [leave flag_limits map snd].
    destruct l as [|c l]; [reflexivity|]. cbn [map]. rewrite (last_indep (map snd l) (snd c) l1 (flag_limits g)). reflexivity.
Qed.
Theorem C112_previous : forall l f opt_l, List.Forall (fun c => log_likelihoods_cal (fst c) <> None) l -> no_perturb f ->
  exists s, calls l f opt_l start = Ok s /\
    perturb (fst s) = Some (if last (map snd l) false then D_perturb_limit else D_perturb).
Proof. intros l f opt_l F H. destruct (calls_flag l F f opt_l start H) as (s & E & P & _). exists s. auto. Qed.
Print Assumptions C112_previous.

(** So the only call of a process never uses the limits, although -l makes it record them; *)
Theorem C112_option_refuted : exists f s, no_perturb f /\ calls [] f true start = Ok s /\
  flag_limits (snd s) = true /\ perturb (fst s) = Some D_perturb.
Proof.
  exists (Fset None (Some (Caller 1)) None None None None None None None None). eexists.
  split; [split; [reflexivity|discriminate]|]. split; [reflexivity|]. split; reflexivity.
Qed.
Print Assumptions C112_option_refuted.
(** and a call without -l after one with -l reads the limits that were freed, as soon as a
    particle is in level 6 and there are 16 levels. *)
Theorem C112_freed_refuted : exists f s, no_perturb f /\ calls [(f, true)] f false start = Ok s /\ limits_ptr (snd s) = Freed /\
  forall ps v level size which h pm, (6 <= level)%Z -> (16 <= size)%Z ->
    run_perturb s (length ps) (ranges_of ps) (types_of ps) (info_of ps) v level size which h pm = UB.
Proof.
  exists (Fset None (Some (Caller 1)) None None None None None None None None). eexists.
  split; [split; [reflexivity|discriminate]|]. split; [reflexivity|]. split; [reflexivity|].
  intros ps v level size which h pm H1 H2. unfold run_perturb. cbn [fst snd perturb limits_ptr default leave].
  unfold dnest_perturb_limit. cbv zeta. destruct (Z.ltb_spec (size - 15) (level - 5)).
  - destruct (Z.ltb_spec 0 (size - 15)); [reflexivity|lia].
  - destruct (Z.ltb_spec 0 (level - 5)); [reflexivity|lia].
Qed.
Print Assumptions C112_freed_refuted.

(** ** The version. *)
(** Version a.b.c is earlier than x.y.z. *)
Definition earlier (v w : Z * Z * Z) : Prop :=
  let '(a, b, c) := v in let '(x, y, z) := w in (a < x \/ (a = x /\ (b < y \/ (b = y /\ c < z))))%Z.
Theorem C112_version : forall a b c, (0 <= c)%Z -> exists r, dnest_check_version (Some a) (Some b) (Some c) = Ok r /\
  (r = 1%Z <-> earlier (0, 1, 0)%Z (a, b, c)) /\ (r = 0%Z <-> (a, b, c) = (0, 1, 0)%Z) /\ (r = (-1)%Z <-> earlier (a, b, c) (0, 1, 0)%Z).
Proof.
  intros a b c Hc. unfold dnest_check_version, dnest_check_version_of, cmp, earlier.
  repeat match goal with |- context [Z.ltb ?x ?y] => destruct (Z.ltb_spec x y) end;
    (eexists; split; [reflexivity|]); (split; [|split]); split; intros K; try discriminate; try (injection K as -> -> ->); try lia; try (f_equal; [f_equal|]; lia).
Qed.
Print Assumptions C112_version.
(** A version of two numbers, like "0.1", compares a variable that is not set; and with a
    later patch number in the header, the comparison finds an earlier patch equal. *)
Theorem C112_version_refuted :
  dnest_check_version (Some 0%Z) (Some 1%Z) None = UB /\
  exists M m p c, earlier (M, m, c) (M, m, p) /\ (0 <= c)%Z /\ dnest_check_version_of M m p (Some M) (Some m) (Some c) = Ok 0%Z.
Proof. split; [reflexivity|]. exists 0%Z, 1%Z, 1%Z, 0%Z. split; [cbn; lia|]. split; [lia|reflexivity]. Qed.
Print Assumptions C112_version_refuted.

(** ** Cases. *)
Definition three : list par := [Par Uniform (-1) 3 0 0; Par Logarithmic 1 8 0 0; Par Gaussian 0 10 4 2].
Lemma three_ok : List.Forall proper three.
Proof. repeat constructor; cbn; try lra; try discriminate; intros; lra. Qed.
Example C112_draw_case : exists pm, dnest_from_prior 3 (ranges_of three) (types_of three) (info_of three) (fun _ => 4) (fun _ => 1 / 3) [0; 0; 0] = Ok pm /\
  pm = [1 / 3; 2; 2].
Proof.
  destruct (C112_draw three (fun _ => 4) (fun _ => 1 / 3) [0; 0; 0] three_ok ltac:(intros; lra) eq_refl) as (pm & E & L & H).
  exists pm. split; [exact E|]. revert E. unfold dnest_from_prior. cbn. unfold draw. cbn.
  replace (ln 1 + 1 / 3 * (ln 8 - ln 1)) with (ln 2).
  2:{ rewrite ln_1. replace 8 with (2 * 2 * 2) by lra. rewrite !ln_mult by lra. lra. }
  rewrite exp_ln by lra. destruct (wrap_spec (4 * 2 + 4) 0 10 ltac:(lra)) as (r & E & Hr & k & Hk). rewrite E. cbn.
  assert (k = 1)%Z as ->. { assert (0 < k < 2)%Z; [|lia]. split; apply lt_IZR; lra. }
  intros Q. injection Q as <-. f_equal; [lra|]. f_equal. f_equal. lra.
Qed.
Example C112_step_case : within three [1; 2; 4] /\
  exists r, dnest_perturb (ranges_of three) (types_of three) (info_of three) 1 (2 / 7) [1; 2; 4] = Ok r /\ fst r = [1; 4; 4] /\ snd r = - ln 2.
Proof.
  split; [repeat constructor; cbn; lra|]. unfold dnest_perturb, whole, move. cbn [get nth_error Nat.mul Nat.add bind three ranges_of types_of info_of flat_map map app p_kind p_lo p_hi code Z.eqb Pos.eqb UNIFORM LOG].
  replace (2 + 2 / 7 * (8 - 1)) with 4 by lra. rewrite (wrap_id 4 1 8) by lra. cbn [bind put set_nth].
  eexists. split; [reflexivity|]. split; [reflexivity|]. cbn [snd]. replace 4 with (2 * 2) by lra. rewrite ln_mult by lra. lra.
Qed.
(** twenty levels, a particle in level 8: the limits of level 2 *)
Example C112_level_step_case : exists lims, length lims = 20%nat /\ List.Forall (fun row => length row = length three) lims /\
  (forall w, level_width lims 8 20 1 (Par Logarithmic 1 8 0 0) w -> w = 2) /\
  exists r, dnest_perturb_limit 3 (ranges_of three) (types_of three) (info_of three) (Some (stored_limits lims)) 8 20 1 1 [1; 2; 4] = Ok r /\ fst r = [1; 4; 4].
Proof.
  exists (repeat [(0, 1); (1, 8); (2, 4)] 2 ++ repeat [(0, 1); (3, 5); (2, 4)] 18). split; [reflexivity|]. split; [repeat constructor|]. split.
  - intros w [[C _]|(_ & row & a & b & E1 & E2 & ->)]; [cbv in C; congruence|]. cbv in E1. injection E1 as <-. injection E2 as <- <-. lra.
  - unfold dnest_perturb_limit, move. cbn -[dnest_wrap].
    change (Pos.to_nat 2) with 2%nat. cbn -[dnest_wrap]. replace (2 + 1 * (5 - 3)) with 4 by lra. rewrite (wrap_id 4 1 8) by lra. cbn. eexists. split; reflexivity.
Qed.
