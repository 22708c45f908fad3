(** C111: what the two functions write that do the reconstruction in the virtual mode and
    the decomposition with one task alone, output_reconstruction_vmap and
    output_decompose_line.  Real arithmetic, no rounding. *)
From Coq Require Import Reals List Arith Lia Lra Permutation ClassicalChoice.
From Coquelicot Require Import Coquelicot.
From Verif Require Import CPrelude SemisepModel SemisepProofs SemisepProofs2 MatBridge MatBridge2 SemisepProofs3 PartProofs PartProofs2 KernelCalc KernelSpec KernelModel KernelGauss2 PartModel
  CovModel LikeModel PredModel PropPart PropSemisep GlsAlgebra LikeProofs PropLike PredProofs PropPred DecompProofs PropDecomp.
From Verif Require Import PropCov MixSpec PropKernel MixModel PropMix PsdCore PsdKernel PropPsd EndModel VmapModel SetsModel PropSets OutModel PropOut VoutModel PropVout SeqModel PropSeq VseqModel.
From Verif Require EndProofs PropEnd PropVmap PropVnorm ParamModel ParamSpec ParamProofs SmallModel PropSmall RecModel RecProofs PropRec PropNorm DecOutModel PropDecOut PropBk.
Import ListNotations.
Open Scope R_scope.

(** ** What is written *)
Section Spec.
Variable ds : nat -> lcset.
Variable scale : nat -> nat -> R.
Variable nq : nat.
Variable ps : list (list R).
(** Q i row y: y are the trend coefficients of the lines of set i, with the parameters of the
    row, nq for every line *)
Variable Q : nat -> list R -> arr -> Prop.
(** what the memory holds that yq is given *)
Variable y0 : arr.
(** trend.txt: zeros for the driving curve; for the first line whatever the memory held; for
    every other line the mean coefficients, with their spreads, of the line before it, in
    the units of the line itself.  Those of the last line are not written. *)
Definition shifted_trends (i : nat) (tr : list (R * R)) : Prop :=
  let nl := s_nl (ds i) in
  length tr = ((1 + nl) * nq)%nat /\
  (forall k, (k < nq)%nat -> nth_error tr k = Some (0, 0)) /\
  (forall k, (1 <= nl)%nat -> (k < nq)%nat -> nth_error tr (nq + k)%nat = Some (y0 k * scale i 1%nat, 0)) /\
  exists ys : list arr, Forall2 (Q i) ps ys /\
    forall j k, (S j < nl)%nat -> (k < nq)%nat ->
      let vs := map (fun y : arr => y (j * nq + k)%nat) ys in
      nth_error tr (S (S j) * nq + k)%nat = Some (PropRec.mean_of vs * scale i (S (S j)), sqrt (PropRec.variance_of vs) * scale i (S (S j))).
End Spec.

(** ** Sums *)
Lemma seq_reduced (jk : R) num_ps np nall nq rec all : length all = (num_ps * np)%nat ->
  seq_sums RecModel.Rarith num_ps np nall nq rec all = RecModel.reduced RecModel.Rarith jk num_ps np 1 [0%nat] nall nq rec all.
Proof.
  intros L. unfold RecModel.reduced. rewrite seq_sums_ok by exact L.
  cbn [map RecModel.sequence]. rewrite sample_one by exact L. cbn [bind].
  assert (E1 : RecModel.ps_task num_ps 1 0 = num_ps) by (unfold RecModel.ps_task, RecModel.ps_average; cbn [Nat.eqb]; lia).
  rewrite RecProofs.task_sums_ok by (rewrite E1; exact L). rewrite E1. cbn [bind map RecModel.reduce fold_left].
  destruct (fold_left _ (seq 0 num_ps) (RecModel.sums0 RecModel.Rarith)). reflexivity.
Qed.
(** what is written of the curves depends on the sums of the points only *)
Lemma curves_same num_ps s s' : forall nall scales n,
  (forall k, (k < n + RecProofs.total nall)%nat -> RecModel.best_of RecModel.Rarith num_ps (RecModel.fb s k) = RecModel.best_of RecModel.Rarith num_ps (RecModel.fb s' k) /\
     RecModel.std_of RecModel.Rarith num_ps (RecModel.fb s k) (RecModel.fs s k) = RecModel.std_of RecModel.Rarith num_ps (RecModel.fb s' k) (RecModel.fs s' k) /\
     RecModel.fm s k = RecModel.fm s' k) ->
  RecModel.curves_out RecModel.Rarith num_ps s n nall scales = RecModel.curves_out RecModel.Rarith num_ps s' n nall scales.
Proof.
  induction nall as [|m nall IH]; intros scales n H; [reflexivity|]. destruct scales as [|c scales]; [reflexivity|]. cbn [RecModel.curves_out].
  unfold RecProofs.total in *. cbn [fold_right] in H. f_equal.
  - apply map_ext_in. intros k K. apply in_seq in K. destruct (H (n + k)%nat ltac:(lia)) as (-> & -> & ->). reflexivity.
  - apply IH. intros k K. apply H. lia.
Qed.

Section Sets.
Variable dgesol : nat -> nat -> arr -> arr -> arr.
Variable dget : nat -> arr -> arr.
Variable log_erfc : R -> R.
Variable type_tf : nat.
Variable flag : bool.
Variable nset : nat.
Variable ds : nat -> lcset.
Variable scale : nat -> nat -> R.
Variable ng : nat.
Variable uniform : nat.
Variable uniform_var : bool.
Variable nq : nat.
Variable nd_rec : nat.
Variables low_ext upp_ext : R.
Variable junk : nat -> nat -> nat.
Variable fd : list R -> nat -> found.
Variable rd : list R -> nat -> rec_found.
Variable ytail : list R -> nat -> arr.
Variable y0 : arr.
Notation np := (ParamModel.num_params nset (nlset ds) ng uniform uniform_var).
Notation one := (vrec_one dgesol dget log_erfc type_tf flag nset ds ng uniform uniform_var nq nd_rec junk fd rd ytail).
Notation one' := (vseq_one dgesol dget log_erfc type_tf flag nset ds ng uniform uniform_var nq nd_rec junk fd rd ytail y0).
Notation vrow' := (vrow dgesol dget log_erfc type_tf flag nset ds ng uniform uniform_var nq nd_rec junk fd rd ytail).
Notation vcur := (vseq_curves dgesol dget log_erfc type_tf flag nset ds ng uniform uniform_var nq nd_rec junk fd rd ytail y0).
Notation vrecon := (vseq_recon dgesol dget log_erfc type_tf flag nset ds ng uniform uniform_var nq nd_rec junk fd rd ytail y0).
Notation vset := (vseq_set dgesol dget log_erfc type_tf flag nset ds scale ng uniform uniform_var nq nd_rec low_ext upp_ext junk fd rd ytail y0).
Notation vpar := (voutput_set dgesol dget log_erfc type_tf flag nset ds scale ng uniform uniform_var nq nd_rec low_ext upp_ext junk fd rd ytail).
Notation pts := (vcount ds nd_rec).

Lemma yq_rest row tall i k : (k < nq * s_nl (ds i))%nat -> rec_yq (one' row tall i) (nq + k)%nat = rec_yq (one row tall i) (nq + k)%nat.
Proof.
  intros K. unfold vseq_one, vrec_one, rec_vmap, rec_vmap_set. cbv zeta. cbn [rec_yq].
  set (v := dgesol _ 1%nat _ _). clearbody v.
  assert (G : forall q0, for_ 0 (nq * s_nl (ds i)) (fun a q => upd q (a + nq) (v a)) q0 (nq + k)%nat = v k).
  { intros q0. pose proof (for_inv arr (fun n q => forall a, (a < n)%nat -> q (nq + a)%nat = v a) 0 (nq * s_nl (ds i)) (fun a q => upd q (a + nq) (v a)) q0) as G. cbv beta in G. apply G; [intros; lia| |lia].
    intros a q A H b B. unfold upd. destruct (Nat.eqb_spec (nq + b) (a + nq)); [f_equal; lia|]. apply H. lia. }
  rewrite !G. reflexivity.
Qed.
Lemma yq_kept row tall i k : (k < nq)%nat -> rec_yq (one' row tall i) k = y0 k.
Proof.
  intros K. unfold vseq_one, rec_vmap, rec_vmap_set. cbv zeta. cbn [rec_yq].
  set (body := fun (a : nat) (q : arr) => upd q (a + nq) _).
  pose proof (for_inv arr (fun _ q => q k = y0 k) 0 (nq * s_nl (ds i)) body (yq_unset nq ytail y0 row i)) as G. cbv beta in G. apply G.
  - unfold yq_unset. destruct (Nat.ltb_spec k nq); [reflexivity|lia].
  - intros a q _ E. unfold body, upd. destruct (Nat.eqb_spec k (a + nq)); [lia|exact E].
Qed.
Lemma curves_of_row tall i row : vrow' tall i row = match vcur tall i row with Some (y, ye) => Some (RecModel.Recon y ye (rec_yq (one row tall i))) | None => None end.
Proof. reflexivity. Qed.

(** ** The curves *)
(** In the virtual mode the curves written by one task are those written by any number of
    tasks. *)
Lemma vset_link jk T order num_ps all i : (1 <= T)%nat -> (1 <= num_ps)%nat -> length all = (num_ps * np)%nat -> Permutation order (seq 0 T) ->
  (o <- vset num_ps all i ;; Ok (match o with Some (Some cs, _) => Some cs | _ => None end)) = (o <- vpar jk num_ps T order all i ;; Ok (option_map fst o)).
Proof.
  intros HT HN HL HO. unfold vseq_set, voutput_set. destruct (vset_times ds nd_rec low_ext upp_ext i) as [ts| | |]; try reflexivity. cbn [bind]. destruct ts as [t|]; [|reflexivity].
  set (tall := fun a => nth a t 0). set (rec := fun row => match vrow' tall i row with Some r => r | None => RecModel.Recon (fun _ => 0) (fun _ => 0) (fun _ => 0) end).
  set (nall := repeat (vpoints ds nd_rec i) (1 + s_nl (ds i))).
  rewrite (seq_reduced jk) by exact HL.
  rewrite (PropRec.reduced_ok jk num_ps np 1 [0%nat] nall nq _ all (le_n 1) HL (Permutation_refl _)).
  rewrite (PropRec.reduced_ok jk num_ps np T order nall nq rec all HT HL HO). cbn [bind].
  set (s := PropRec.reduced_sums num_ps np 1 [0%nat] nall nq _ all). set (s' := PropRec.reduced_sums num_ps np T order nall nq rec all).
  assert (HH : has_none (vcur tall i) (vrows num_ps np all) = has_none (vrow' tall i) (vrows num_ps np all)).
  { unfold has_none. generalize (vrows num_ps np all). intros l. induction l as [|row l IH]; [reflexivity|]. cbn [existsb]. rewrite IH, curves_of_row. destruct (vcur tall i row) as [[y ye]|]; reflexivity. }
  rewrite HH. destruct (has_none (vrow' tall i) (vrows num_ps np all)); [reflexivity|]. cbn [bind option_map fst].
  assert (EC : forall V (value : RecModel.recon R -> nat -> V) k, (forall row, value (vrecon tall i row) k = value (rec row) k) ->
    PropRec.column value (vrecon tall i) num_ps np all k = PropRec.column value rec num_ps np all k).
  { intros V value k H. unfold PropRec.column. apply map_ext. intros m. apply H. }
  assert (E1 : forall row k, RecModel.rf (vrecon tall i row) k = RecModel.rf (rec row) k).
  { intros row k. unfold rec, vseq_recon. rewrite curves_of_row. destruct (vcur tall i row) as [[y ye]|]; reflexivity. }
  assert (E2 : forall row k, RecModel.rfe (vrecon tall i row) k = RecModel.rfe (rec row) k).
  { intros row k. unfold rec, vseq_recon. rewrite curves_of_row. destruct (vcur tall i row) as [[y ye]|]; reflexivity. }
  assert (SM : forall k, (k < RecProofs.total nall)%nat -> RecModel.best_of RecModel.Rarith num_ps (RecModel.fb s k) = RecModel.best_of RecModel.Rarith num_ps (RecModel.fb s' k) /\
     RecModel.std_of RecModel.Rarith num_ps (RecModel.fb s k) (RecModel.fs s k) = RecModel.std_of RecModel.Rarith num_ps (RecModel.fb s' k) (RecModel.fs s' k) /\
     RecModel.fm s k = RecModel.fm s' k).
  { intros k K. destruct (PropRec.out_flux num_ps np 1 [0%nat] nall nq (vrecon tall i) all (le_n 1) HN (Permutation_refl _) k K) as (A1 & _ & A2 & A3).
    destruct (PropRec.out_flux num_ps np T order nall nq rec all HT HN HO k K) as (B1 & _ & B2 & B3). fold s in A1, A2, A3. fold s' in B1, B2, B3.
    rewrite A1, A2, A3, B1, B2, B3. rewrite !EC by (intros; auto). auto. }
  assert (CS : vcurves_out num_ps s (vpoints ds nd_rec i) (repeat (vpoints ds nd_rec i) (s_nl (ds i))) (map (scale i) (seq 0 (1 + s_nl (ds i)))) =
               vcurves_out num_ps s' (vpoints ds nd_rec i) (repeat (vpoints ds nd_rec i) (s_nl (ds i))) (map (scale i) (seq 0 (1 + s_nl (ds i))))).
  { unfold nall in SM. cbn [repeat Nat.add] in SM. unfold RecProofs.total in SM. cbn [fold_right] in SM. cbn [seq map Nat.add vcurves_out]. f_equal.
    - apply map_ext_in. intros k K. apply in_seq in K. destruct (SM k ltac:(lia)) as (-> & -> & _). reflexivity.
    - apply curves_same. exact SM. }
  rewrite CS. reflexivity.
Qed.
Theorem C111_curves jk T order num_ps all : (1 <= T)%nat -> (1 <= num_ps)%nat -> length all = (num_ps * np)%nat ->
  (forall i, (i < nset)%nat -> Permutation (order i) (seq 0 T)) ->
  (outs <- output_reconstruction_vmap dgesol dget log_erfc type_tf flag nset ds scale ng uniform uniform_var nq nd_rec low_ext upp_ext junk fd rd ytail y0 num_ps all ;;
     Ok (map (fun o => match o with Some (Some cs, _) => Some cs | _ => None end) outs)) =
  (outs <- output_reconstruction_parallel_vmap dgesol dget log_erfc type_tf flag nset ds scale ng uniform uniform_var nq nd_rec low_ext upp_ext junk fd rd ytail jk num_ps T order all ;;
     Ok (map (option_map fst) outs)).
Proof.
  intros HT HN HL HO. unfold output_reconstruction_vmap, output_reconstruction_parallel_vmap.
  rewrite <- (sequence_link (fun i => o <- vset num_ps all i ;; Ok (match o with Some (Some cs, _) => Some cs | _ => None end)) (vset num_ps all)) by reflexivity.
  rewrite <- (sequence_link (fun i => o <- vpar jk num_ps T (order i) all i ;; Ok (option_map fst o)) (fun i => vpar jk num_ps T (order i) all i)) by reflexivity.
  f_equal. apply map_ext_in. intros i I. apply in_seq in I. apply vset_link; auto. apply HO. lia.
Qed.

(** ** The trends *)
Lemma const_mean {A} (l : list A) c : (1 <= length l)%nat -> PropRec.mean_of (map (fun _ => c) l) = c.
Proof.
  intros L. unfold PropRec.mean_of. rewrite map_length.
  replace (PropRec.Rsum (map (fun _ : A => c) l)) with (INR (length l) * c); [field; apply not_0_INR; lia|].
  clear L. unfold PropRec.Rsum. induction l as [|x l IH]; [cbn; ring|]. cbn [map fold_right length]. rewrite S_INR, <- IH. ring.
Qed.
Lemma const_variance {A} (l : list A) c : (1 <= length l)%nat -> PropRec.variance_of (map (fun _ => c) l) = 0.
Proof.
  intros L. unfold PropRec.variance_of. rewrite const_mean, map_map by exact L. replace (PropRec.Rsum (map (fun _ : A => (c - c) ^ 2) l)) with 0; [unfold Rdiv; ring|].
  clear L. unfold PropRec.Rsum. induction l as [|x l IH]; [reflexivity|]. cbn [map fold_right]. rewrite <- IH. ring.
Qed.
Lemma vset_trend ps (Q : nat -> list R -> arr -> Prop) i : List.Forall (fun r => length r = np) ps -> (1 <= length ps)%nat -> (2 <= nd_rec)%nat -> lines_in_order ds low_ext upp_ext i ->
  (forall row tall, In row ps -> Q i row (fun k => rec_yq (one row tall i) (nq + k)%nat)) ->
  exists oc tr, vset (length ps) (concat ps) i = Ok (Some (oc, tr)) /\ shifted_trends ds scale nq ps Q y0 i tr.
Proof.
  intros HS HN HD IO HQ. pose proof (length_concat ps np HS) as HL.
  destruct (vtimes_ok ds nd_rec low_ext upp_ext ps HN HD i IO) as (_ & first & step & _ & ET).
  unfold vseq_set. rewrite ET. cbn [bind]. set (t := concat _). set (tall := fun a => nth a t 0). set (nall := repeat (vpoints ds nd_rec i) (1 + s_nl (ds i))).
  rewrite (seq_reduced 0) by exact HL. rewrite (PropRec.reduced_ok 0 (length ps) np 1 [0%nat] nall nq _ (concat ps) (le_n 1) HL (Permutation_refl _)). cbn [bind].
  set (s := PropRec.reduced_sums (length ps) np 1 [0%nat] nall nq _ (concat ps)).
  do 2 eexists. split; [reflexivity|]. change (map (scale i) (seq 0 (1 + s_nl (ds i)))) with (scale i 0%nat :: map (scale i) (seq 1 (s_nl (ds i)))). unfold vseq_trend.
  assert (TR : forall k, (k < nq * length nall)%nat -> _) by exact (PropRec.out_trend (length ps) np 1 [0%nat] nall nq (vrecon tall i) (concat ps) (le_n 1) HN (Permutation_refl _)). fold s in TR.
  unfold nall in TR. rewrite repeat_length in TR.
  assert (CE : forall k, PropRec.column (@RecModel.ry R) (vrecon tall i) (length ps) np (concat ps) k = map (fun row => rec_yq (one' row tall i) k) ps).
  { intros k. rewrite column_rows by exact HS. apply map_ext. intros row. unfold vseq_recon. destruct (vcur tall i row) as [[y ye]|]; reflexivity. }
  assert (RW : forall j k, (j < s_nl (ds i))%nat -> (k < nq)%nat -> let vs := map (fun row => rec_yq (one' row tall i) (j * nq + k)%nat) ps in
    nth_error (repeat (0 * scale i 0%nat, 0 * scale i 0%nat) nq ++ RecModel.trend_out RecModel.Rarith (length ps) nq s 0 (map (scale i) (seq 1 (s_nl (ds i))))) (S j * nq + k)
    = Some (PropRec.mean_of vs * scale i (S j), sqrt (PropRec.variance_of vs) * scale i (S j))).
  { intros j k J K. cbv zeta. cbn [Nat.mul]. rewrite nth_error_app2 by (rewrite repeat_length; lia). rewrite repeat_length. replace (nq + j * nq + k - nq)%nat with (j * nq + k)%nat by lia.
    assert (SC : nth_error (map (scale i) (seq 1 (s_nl (ds i)))) j = Some (scale i (S j))).
    { rewrite nth_error_map, (nth_error_nth' _ 0%nat) by (rewrite seq_length; exact J). rewrite seq_nth by exact J. reflexivity. }
    pose proof (PropRec.nth_trend (length ps) nq s (map (scale i) (seq 1 (s_nl (ds i)))) 0 j (scale i (S j)) k SC K) as V. cbv zeta in V. rewrite V.
    change (0 + j)%nat with j. destruct (TR (j * nq + k)%nat ltac:(nia)) as (F1 & _ & F3). rewrite F1, F3, CE. reflexivity. }
  split; [rewrite app_length, repeat_length, PropRec.trend_length, map_length, seq_length; lia|]. split; [|split].
  - intros k K. rewrite nth_error_app1 by (rewrite repeat_length; exact K). rewrite (nth_error_nth' _ (0, 0)) by (rewrite repeat_length; exact K).
    rewrite !Rmult_0_l. rewrite nth_repeat. reflexivity.
  - intros k NL K. pose proof (RW 0%nat k ltac:(lia) K) as V. cbv zeta in V. replace (1 * nq + k)%nat with (nq + k)%nat in V by lia. rewrite V. cbn [Nat.mul Nat.add].
    rewrite (map_ext _ (fun _ => y0 k)) by (intros row; apply yq_kept; exact K). rewrite const_mean, const_variance, sqrt_0, Rmult_0_l by exact HN. reflexivity.
  - exists (map (fun row k => rec_yq (one row tall i) (nq + k)%nat) ps). split.
    + apply forall2_map. intros row RI. apply HQ, RI.
    + intros j k J K. rewrite !map_map. pose proof (RW (S j) k J K) as V. cbv zeta in V. cbn [Nat.mul] in V |- *. rewrite V. 
      replace (map (fun row => rec_yq (one' row tall i) (nq + j * nq + k)%nat) ps) with (map (fun row => rec_yq (one row tall i) (nq + (j * nq + k))%nat) ps); [reflexivity|].
      apply map_ext. intros row. rewrite <- yq_rest by nia. f_equal. lia.
Qed.

(** ** The virtual mode *)
Notation par := row_values.
Notation li := (line_index nset ds ng uniform uniform_var junk).
Notation ci := (con_index uniform_var).
Notation psi_g := (fun row i j => response (PropCov.shape_of type_tf) ng (component nset ds ng uniform uniform_var (par row) (decode flag) i j)).
Variable ps : list (list R).
Variables SS Si L : nat -> list R -> nat -> nat -> R.
(** For every set: pall.txt as the parallel function writes it (C83), trend.txt with the
    trends shifted by one line *)
Definition one_task_written (psi : list R -> nat -> nat -> R -> R) (outs : list (option (option (list (list (R * (R * R)))) * list (R * R)))) : Prop :=
  length outs = nset /\ forall i, (i < nset)%nat -> exists oc tr, nth_error outs i = Some (Some (oc, tr)) /\
    match oc with
    | Some cs => exists tr0, vwritten ds scale nq nd_rec low_ext upp_ext ps (best_driving ds uniform_var nq SS L psi) (best_line ds uniform_var nq SS L psi) (line_trend ds nq Si L) i (cs, tr0)
    | None => flat ds nd_rec low_ext upp_ext ps (best_driving ds uniform_var nq SS L psi) i
    end /\ shifted_trends ds scale nq ps (line_trend ds nq Si L) y0 i tr.
Theorem C111_virtual : dgesol_spec dgesol -> dget_spec dget ->
  List.Forall (fun r => length r = np) ps -> (1 <= length ps)%nat -> (2 <= nd_rec)%nat ->
  (forall i, (i < nset)%nat -> lines_in_order ds low_ext upp_ext i /\ forall row, In row ps ->
     vset_ok nset ds ng uniform uniform_var nq (par row) i /\ lines_only_described nset ds ng uniform uniform_var nq (par row) (psi_g row) i (SS i row) (Si i row) (L i row) /\
     set_good ds ng uniform_var (par row) log_erfc type_tf (component nset ds ng uniform uniform_var (par row) (decode flag)) i) ->
  exists outs, output_reconstruction_vmap dgesol dget log_erfc type_tf flag nset ds scale ng uniform uniform_var nq nd_rec low_ext upp_ext junk fd rd ytail y0
      (length ps) (concat ps) = Ok outs /\ one_task_written psi_g outs.
Proof.
  intros DG DI HS HN HD H. pose proof (length_concat ps np HS) as HL.
  destruct (C83_virtual dgesol dget log_erfc type_tf flag nset ds scale ng uniform uniform_var nq nd_rec low_ext upp_ext junk fd rd ytail ps SS Si L 0 1 (fun _ => [0%nat]) DG DI HS HN HD (le_n 1)) as (outs' & E' & LN' & W').
  { intros i I. destruct (H i I) as [A B]. split; [exact A|]. split; [apply Permutation_refl|exact B]. }
  assert (X : forall i, (i < nset)%nat -> exists x, vset (length ps) (concat ps) i = Ok x /\ exists oc tr, x = Some (oc, tr) /\ shifted_trends ds scale nq ps (line_trend ds nq Si L) y0 i tr).
  { intros i I. destruct (H i I) as [IO HR]. destruct (vset_trend ps (line_trend ds nq Si L) i HS HN HD IO) as (oc & tr & E & W).
    - intros row tall RI. destruct (HR row RI) as ((NQ & NL & ER & ETT) & DS & G). set (d := ds i) in *. set (pm := par row) in *.
      assert (LO : PropVmap.lines_ok (s_nl d) (s_nline d) (s_tline d) (s_fel d) (s_eml d) nq pm li i).
      { split; [exact NQ|]. split; [|exact ETT]. intros j m J M. unfold d. rewrite v_err by (try exact I; fold d; lia). apply ER; assumption. }
      destruct (PropVmap.C72_light_curves (s_nl d) (s_nline d) (s_tline d) (s_fel d) (s_eml d) (s_fall d) nq pm ci li i
        (f_mem (fd row i)) (f_PS (fd row i)) (f_L (fd row i)) (fun _ => vpoints ds nd_rec i) tall (r_US (rd row i)) (r_AS (rd row i)) (r_L (rd row i)) (r_PE (rd row i)) (yq_before nq ytail row i)
        dgesol dget log_erfc type_tf flag ng (v_good log_erfc type_tf flag nset ds ng uniform uniform_var junk pm i I G) (SS i row) (Si i row) (L i row) LO NL DG DI
        (v_to type_tf flag nset ds ng uniform uniform_var nq junk pm i I _ _ _ DS)) as [B1 _]. exact B1.
    - exists (Some (oc, tr)). split; [exact E|]. exists oc, tr. auto. }
  destruct (sequence_all nd_rec ps HN HD _ _ nset X) as (outs & E & LN & W). exists outs. split; [exact E|]. split; [exact LN|]. intros i I.
  destruct (W i I) as (x & N1 & oc & tr & -> & ST). exists oc, tr. split; [exact N1|]. split; [|exact ST].
  pose proof (C111_curves 0 1 (fun _ => [0%nat]) (length ps) (concat ps) (le_n 1) HN HL (fun _ _ => Permutation_refl _)) as CC.
  change (output_reconstruction_vmap dgesol dget log_erfc type_tf flag nset ds scale ng uniform uniform_var nq nd_rec low_ext upp_ext junk fd rd ytail y0 (length ps) (concat ps) = Ok outs) in E.
  rewrite E, E' in CC. cbn [bind] in CC. apply (f_equal (fun o => match o with Ok l => nth_error l i | _ => None end)) in CC. cbv beta iota in CC.
  rewrite !nth_error_map, N1 in CC. destruct (W' i I) as (r & N2 & R). rewrite N2 in CC. cbn [option_map] in CC.
  destruct oc as [cs|], r as [[cs' tr']|]; cbn [option_map fst] in CC; try discriminate; [|exact R]. exists tr'. injection CC as ->. exact R.
Qed.
(** Data that lie on a trend exactly: the trend found is that one. *)
Lemma on_trend i row w q : (i < nset)%nat -> vset_ok nset ds ng uniform uniform_var nq (par row) i ->
  lines_only_described nset ds ng uniform uniform_var nq (par row) (psi_g row) i (SS i row) (Si i row) (L i row) ->
  (forall j k, (j < s_nl (ds i))%nat -> (k < s_nline (ds i) j)%nat -> s_fall (ds i) (total (s_nline (ds i)) j + k)%nat = trend_at nq w j (s_tline (ds i) j k)) ->
  line_trend ds nq Si L i row q ->
  forall j k, (j < s_nl (ds i))%nat -> (k < s_nline (ds i) j)%nat -> trend_at nq q j (s_tline (ds i) j k) = trend_at nq w j (s_tline (ds i) j k).
Proof.
  intros I (NQ & NL & ER & ETT) DS F LS. set (d := ds i) in *. set (pm := par row) in *.
  assert (LO : PropVmap.lines_ok (s_nl d) (s_nline d) (s_tline d) (s_fel d) (s_eml d) nq pm li i).
  { split; [exact NQ|]. split; [|exact ETT]. intros j m J M. unfold d. rewrite v_err by (try exact I; fold d; lia). apply ER; assumption. }
  destruct (v_to type_tf flag nset ds ng uniform uniform_var nq junk pm i I _ _ _ DS) as (D & IV & TD). fold d in D, IV, TD.
  destruct (PropVmap.lines_pd _ _ _ _ _ _ _ _ _ _ _ _ _ _ LO D) as [SY PD].
  assert (SPD : spd (lines_points ds i) (SS i row)) by (apply PropBk.spd_of; [exact SY|exact PD]).
  assert (HI : inv_of (lines_points ds i) (SS i row) (Si i row)) by (intros a b A B; destruct (IV a b A B); auto).
  pose proof (spd_inv _ _ _ SPD HI) as [_ PDi].
  assert (G : forall n a, (a < total (s_nline d) n)%nat -> exists j k, (j < n)%nat /\ (k < s_nline d j)%nat /\ a = (total (s_nline d) j + k)%nat).
  { clear. induction n as [|n IH]; intros a A; cbn [total] in A; [lia|]. destruct (Nat.lt_ge_cases a (total (s_nline d) n)) as [C|C].
    - destruct (IH a C) as (j & k & J & K & E). exists j, k. auto.
    - exists n, (a - total (s_nline d) n)%nat. lia. }
  assert (Z : chi_square (lines_points ds i) (Si i row) (residual (nq * s_nl d) (L i row) (s_fall d) w) = 0).
  { unfold chi_square. rewrite (sumn_ext _ _ (fun _ => 0)); [apply sumn_zero|]. intros a A. rewrite (sumn_ext _ _ (fun _ => 0)); [apply sumn_zero|]. intros b B.
    destruct (G _ a A) as (j & k & J & K & ->). unfold residual at 1. rewrite TD, F by assumption. ring. }
  specialize (LS w). fold d in LS. rewrite Z in LS. intros j k J K.
  assert (B : (total (s_nline d) j + k < lines_points ds i)%nat).
  { unfold lines_points. fold d. clear - J K. induction (s_nl d) as [|n IH]; [lia|]. cbn [total]. destruct (Nat.eq_dec j n) as [->|]; [lia|]. specialize (IH ltac:(lia)). lia. }
  destruct (Req_dec (residual (nq * s_nl d) (L i row) (s_fall d) q (total (s_nline d) j + k)) 0) as [E|NE].
  - unfold residual in E. rewrite TD, F in E by assumption. lra.
  - pose proof (PDi _ (ex_intro _ _ (conj B NE))) as P. unfold quad in P. unfold chi_square in LS. lra.
Qed.
End Sets.
Print Assumptions C111_curves.
Print Assumptions C111_virtual.

(** ** The decomposition *)
Section Decomposition.
Variable dgesol : nat -> nat -> arr -> arr -> arr.
Variable log_erfc : R -> R.
Variable type_tf : nat.
Variable flag : bool.
Variable nset : nat.
Variable ds : nat -> lcset.
Variable scale : nat -> nat -> R.
Variable ng : nat.
Variable uniform : nat.
Variable uniform_var : bool.
Variable nq : nat.
Variable nd_rec : nat.
Variable junk : nat -> nat -> nat.
Variable fd : nat -> list R -> nat -> found.
Variable rd : nat -> list R -> nat -> rec_found.
Notation np := (ParamModel.num_params nset (nlset ds) ng uniform uniform_var).
Notation dec := (DecOutModel.dec_one dgesol log_erfc type_tf flag nset ds ng uniform uniform_var nq nd_rec junk fd rd).
Notation dset := (dec_set dgesol log_erfc type_tf flag nset ds scale ng uniform uniform_var nq nd_rec junk fd rd).
Lemma params_same ratio row a : (1 <= ng)%nat -> (a < np)%nat ->
  seq_params nset ds ng uniform uniform_var ratio row a = row_params nset ds ng uniform uniform_var ratio row a.
Proof.
  intros NG A. unfold seq_params, row_params. destruct ratio; [|reflexivity].
  assert (NP : (ParamModel.num_params_var nset uniform_var + ParamSpec.nlines nset (nlset ds) uniform * (1 + 3 * ng))%nat = np) by (unfold ParamModel.num_params; rewrite ParamProofs.npl_lines; unfold ParamModel.per_line; lia).
  replace (ParamModel.num_params_line nset (nlset ds) ng uniform) with (ParamSpec.nlines nset (nlset ds) uniform * (1 + 3 * ng))%nat by (rewrite ParamProofs.npl_lines; unfold ParamModel.per_line; lia).
  destruct (PropSmall.C53_copy Rplus ng (ParamModel.num_params_var nset uniform_var) (ParamSpec.nlines nset (nlset ds) uniform) 0 np (row_values row) NG) as (M1 & E1 & _); [rewrite NP; left; lia|].
  destruct (PropSmall.C53_inplace Rplus ng (ParamModel.num_params_var nset uniform_var) (ParamSpec.nlines nset (nlset ds) uniform) 0 (row_values row) NG) as (M2 & E2 & _).
  pose proof (PropSmall.C53_agree Rplus ng (ParamModel.num_params_var nset uniform_var) (ParamSpec.nlines nset (nlset ds) uniform) 0 np (row_values row) M1 M2 NG) as G. cbv zeta in G.
  rewrite NP in E1, G. rewrite E1, E2. exact (G ltac:(left; lia) E1 E2 a A).
Qed.
Lemma dec_link g i jk T order rows : (1 <= T)%nat -> Permutation order (seq 0 T) -> (1 <= length rows)%nat -> List.Forall (fun r => length r = np) rows ->
  dset g rows i = (o <- output_set nset ds scale ng uniform uniform_var 0 nd_rec 0 0 (dec g) false jk (length rows) T order (concat rows) i ;; Ok (option_map fst o)).
Proof.
  intros HT HO HN HS. pose proof (length_concat rows np HS) as HL.
  change (output_set nset ds scale ng uniform uniform_var 0 nd_rec 0 0 (dec g) false jk (length rows) T order (concat rows) i)
    with (output_set nset ds scale ng uniform uniform_var 0 nd_rec 0 0 (fun row tall _ i => dec g row tall (row_values row) i) false jk (length rows) T order (concat rows) i).
  rewrite (set_link nset ds scale ng uniform uniform_var 0 nd_rec 0 0 (fun row tall i => dec g row tall (row_values row) i) jk T order _ _ i HT HO HN HL).
  unfold dec_set, gen_set. destruct (set_times ds nd_rec 0 0 i) as [[t|]| | |]; try reflexivity. cbn [bind].
  destruct (seq_set _ _ _ _ _ _ _ _ _ _ _ _) as [out| | |]; try reflexivity. cbn [bind]. rewrite (sequence_rows _ _ _ HL). reflexivity.
Qed.
(** The files of the components are those of output_decompose_line_parallel, with any number
    of tasks. *)
Theorem C111_components ratio jk T order ps : (1 <= T)%nat -> (1 <= ng)%nat -> (1 <= length ps)%nat -> List.Forall (fun r => length r = np) ps ->
  (forall g i, (g < ng)%nat -> (i < nset)%nat -> Permutation (order g i) (seq 0 T)) ->
  output_decompose_line dgesol log_erfc type_tf flag nset ds scale ng uniform uniform_var nq nd_rec junk fd rd ratio (length ps) (concat ps) =
  DecOutModel.output_decompose_line_parallel dgesol log_erfc type_tf flag nset ds scale ng uniform uniform_var nq nd_rec junk fd rd ratio jk T order ps.
Proof.
  intros HT NG HN HS HO. unfold output_decompose_line, dec_rows. rewrite (sequence_rows _ _ _ (length_concat ps np HS)). cbn [bind].
  rewrite (rows_back nset ds ng uniform uniform_var 2 ps HS HN (le_n 2)).
  assert (RE : map (fun row => map (seq_params nset ds ng uniform uniform_var ratio row) (seq 0 np)) ps = map (DecOutModel.read_row nset ds ng uniform uniform_var ratio) ps).
  { apply map_ext. intros row. apply map_ext_in. intros a A. apply in_seq in A. apply params_same; [exact NG|lia]. }
  rewrite RE. set (rows := map (DecOutModel.read_row nset ds ng uniform uniform_var ratio) ps).
  assert (LR : length rows = length ps) by apply map_length.
  assert (HR : List.Forall (fun r => length r = np) rows) by (apply Forall_forall; intros r R; apply in_map_iff in R; destruct R as (row & <- & _); unfold DecOutModel.read_row; rewrite map_length, seq_length; reflexivity).
  unfold DecOutModel.output_decompose_line_parallel, DecOutModel.all_components. f_equal. apply map_ext_in. intros g G. apply in_seq in G.
  unfold DecOutModel.component_file, output_all. rewrite <- LR. fold rows.
  rewrite <- (sequence_link (dset g rows) (fun i => output_set nset ds scale ng uniform uniform_var 0 nd_rec 0 0 (dec g) false jk (length rows) T (order g i) (concat rows) i) (option_map fst)); [reflexivity|].
  intros i I. apply in_seq in I. apply dec_link; auto; [apply HO; lia|rewrite LR; exact HN].
Qed.
(** Fewer numbers than the first line of the file promises: the program ends. *)
Theorem C111_short ratio num_ps all : (length all < num_ps * np)%nat ->
  output_decompose_line dgesol log_erfc type_tf flag nset ds scale ng uniform uniform_var nq nd_rec junk fd rd ratio num_ps all = Exit.
Proof.
  intros H. unfold output_decompose_line, dec_rows.
  assert (E : RecModel.sequence (map (fun m => read_row np m all) (seq 0 num_ps)) = Exit); [|rewrite E; reflexivity].
  assert (G : forall l, (exists m, In m l /\ (length all < m * np + np)%nat) -> RecModel.sequence (map (fun m => read_row np m all) l) = Exit).
  { clear. induction l as [|m l IH]; intros (m' & M & C); [contradiction|]. cbn [map RecModel.sequence]. unfold read_row at 1.
    destruct (Nat.leb_spec (m * np + np) (length all)) as [B|B]; [|reflexivity]. cbn [bind]. destruct M as [->|M]; [lia|]. rewrite IH by (exists m'; auto). reflexivity. }
  apply G. destruct num_ps as [|n]; [lia|]. exists n. split; [apply in_seq; lia|]. lia.
Qed.
End Decomposition.
Print Assumptions C111_components.
Print Assumptions C111_short.

(** ** Cases meeting the hypotheses *)
Notation vseq fall scale mem y0 rows := (output_reconstruction_vmap ref_dgesol ref_dget (fun _ => 0) 1 false 2 (out_sets fall) scale 2 0 false 2 200 (-10) 10 (fun _ _ => 0%nat)
    (fun _ => case_found mem) (fun _ _ => RecFound mem mem mem mem mem) (fun _ _ => mem) y0 2 rows).
(** The two sets of C83_case, with two and three lines; any two rows of 41 numbers, any
    contents of the memory. *)
Lemma vseq_rows fall : (forall row i, (i < 2)%nat -> vset_ok 2 (out_sets fall) 2 0 false 2 (row_values row) i) /\
  exists SS Si L : nat -> list R -> nat -> nat -> R, forall i row, (i < 2)%nat ->
    lines_only_described 2 (out_sets fall) 2 0 false 2 (row_values row) (vout_resp fall row) i (SS i row) (Si i row) (L i row).
Proof.
  assert (OK : forall row i, (i < 2)%nat -> lines_only_ok 2 (out_sets fall) 2 0 false 2 (row_values row) i).
  { intros row i I. destruct (out_ok fall 0 false (row_values row) i I) as (NQ & _ & _ & _ & E & ET). split; [exact NQ|]. split; [cbn; lia|]. split.
    - intros j m J M. apply (E (S j) m); [lia|exact M].
    - intros j J. apply (ET (S j)). lia. }
  split.
  - intros row i I. destruct (OK row i I) as (NQ & NL & E & ET). split; [exact NQ|split; [lia|split; assumption]].
  - assert (H : forall x : nat * list R, exists y : (nat -> nat -> R) * (nat -> nat -> R) * (nat -> nat -> R), (fst x < 2)%nat ->
      lines_only_described 2 (out_sets fall) 2 0 false 2 (row_values (snd x)) (vout_resp fall (snd x)) (fst x) (fst (fst y)) (snd (fst y)) (snd y)).
    { intros [i row]. cbn [fst snd]. destruct (Nat.lt_ge_cases i 2) as [I|I]; [|exists (fun _ _ => 0, fun _ _ => 0, fun _ _ => 0); intros; lia].
      destruct (C74_virtual_described (fun _ => 0) 1 false 2 (out_sets fall) 2 0 false 2 (fun _ _ => 0%nat) (row_values row) i I (OK row i I) Logic.I) as (a & b & c & D).
      exists (a, b, c). intros _. exact D. }
    apply ClassicalChoice.choice in H. destruct H as [g D].
    exists (fun i row => fst (fst (g (i, row)))), (fun i row => snd (fst (g (i, row)))), (fun i row => snd (g (i, row))). intros i row I. exact (D (i, row) I).
Qed.
Lemma vseq_case fall scale mem y0 r1 r2 SS Si L : length r1 = 41%nat -> length r2 = 41%nat ->
  (forall i row, (i < 2)%nat -> lines_only_described 2 (out_sets fall) 2 0 false 2 (row_values row) (vout_resp fall row) i (SS i row) (Si i row) (L i row)) ->
  exists outs, vseq fall scale mem y0 (r1 ++ r2) = Ok outs /\ one_task_written 2 (out_sets fall) scale false 2 200 (-10) 10 y0 [r1; r2] SS Si L (vout_resp fall) outs.
Proof.
  intros L1 L2 D.
  destruct (C111_virtual ref_dgesol ref_dget (fun _ => 0) 1 false 2 (out_sets fall) scale 2 0 false 2 200 (-10) 10 (fun _ _ => 0%nat)
    (fun _ => case_found mem) (fun _ _ => RecFound mem mem mem mem mem) (fun _ _ => mem) y0 [r1; r2] SS Si L dgesol_exists dget_exists) as (outs & E & W).
  - constructor; [rewrite L1; reflexivity|]. constructor; [rewrite L2; reflexivity|constructor].
  - cbn; lia.
  - lia.
  - intros i I. split; [apply vout_order, I|]. intros row _. split; [apply (proj1 (vseq_rows fall)), I|]. split; [exact (D i row I)|exact Logic.I].
  - exists outs. split; [|exact W]. cbn [concat length] in E. rewrite app_nil_r in E. exact E.
Qed.
Example C111_case fall scale mem y0 r1 r2 : length r1 = 41%nat -> length r2 = 41%nat -> exists SS Si L outs, vseq fall scale mem y0 (r1 ++ r2) = Ok outs
  /\ one_task_written 2 (out_sets fall) scale false 2 200 (-10) 10 y0 [r1; r2] SS Si L (vout_resp fall) outs.
Proof.
  intros L1 L2. destruct (proj2 (vseq_rows fall)) as (SS & Si & L & D). destruct (vseq_case fall scale mem y0 r1 r2 SS Si L L1 L2 D) as (outs & E & W).
  exists SS, Si, L, outs. auto.
Qed.
(** Lines that are constant, 1, 2 and 3: for the first line the memory is written as its
    trend, for the second the level of the first. *)
Theorem C111_trend_refuted : exists fall, (forall i j k, (j < 2 + i)%nat -> (k < 3)%nat -> fall i (3 * j + k)%nat = 1 + INR j) /\
  forall scale mem y0 r1 r2, length r1 = 41%nat -> length r2 = 41%nat -> exists outs, vseq fall scale mem y0 (r1 ++ r2) = Ok outs /\
    forall i, (i < 2)%nat -> exists oc tr, nth_error outs i = Some (Some (oc, tr)) /\
      nth_error tr 2 = Some (y0 0%nat * scale i 1%nat, 0) /\ nth_error tr 4 = Some (1 * scale i 2%nat, 0).
Proof.
  exists (fun _ p => 1 + INR (p / 3)). split.
  - intros i j k J K. f_equal. f_equal. rewrite (Nat.mul_comm 3), Nat.div_add_l, Nat.div_small by lia. lia.
  - intros scale mem y0 r1 r2 L1 L2. set (fall := fun (_ : nat) p => _).
    destruct (vseq_rows fall) as (OK & SS & Si & L & D). destruct (vseq_case fall scale mem y0 r1 r2 SS Si L L1 L2 D) as (outs & E & _ & W).
    exists outs. split; [exact E|]. intros i I. destruct (W i I) as (oc & tr & N & _ & _ & _ & F1 & ys & Q & F2). exists oc, tr. split; [exact N|].
    cbn [out_sets s_nl] in F1, F2. split; [exact (F1 0%nat ltac:(lia) ltac:(lia))|]. pose proof (F2 0%nat 0%nat ltac:(lia) ltac:(lia)) as V. cbv zeta in V. cbn [Nat.mul Nat.add] in V. rewrite V.
    assert (Y : forall row y, line_trend (out_sets fall) 2 Si L i row y -> y 0%nat = 1).
    { intros row y LT.
      pose proof (on_trend 1 false 2 (out_sets fall) 2 0 false 2 (fun _ _ => 0%nat) SS Si L i row (fun m => if Nat.even m then 1 + INR (m / 2) else 0) y I (OK row i I) (D i row I)) as T.
      cbn [out_sets s_nl s_nline s_tline s_fall] in T. 
      assert (T0 := T ltac:(intros j k J K; rewrite total_const; unfold fall, trend_at; cbn [sumn pow];
        rewrite Nat.div_add_l, (Nat.div_small k) by lia; rewrite (Nat.mul_comm j 2), Nat.add_0_r, Nat.add_0_r, Nat.even_mul, Nat.even_add, Nat.even_mul; cbn [Nat.even orb Bool.eqb];
        rewrite (Nat.mul_comm 2 j), Nat.div_mul by lia; ring) LT). clear T.
      pose proof (T0 0%nat 0%nat ltac:(lia) ltac:(lia)) as A. unfold trend_at in A. cbn [sumn pow Nat.mul Nat.add Nat.even Nat.div Nat.divmod fst INR] in A. lra. }
    assert (M : map (fun y : arr => y 0%nat) ys = map (fun _ => 1) [r1; r2]).
    { clear - Q Y. revert Q. generalize [r1; r2]. intros l Q. induction Q as [|row y l ys H Q IH]; [reflexivity|]. cbn [map]. rewrite (Y row y H), IH. reflexivity. }
    rewrite M, const_mean, const_variance, sqrt_0, Rmult_0_l by (cbn; lia). reflexivity.
Qed.
Print Assumptions C111_trend_refuted.
Notation dseq fall scale mem ratio rows := (output_decompose_line ref_dgesol (fun _ => 0) 1 false 2 (out_sets fall) scale 2 0 false 2 200 (fun _ _ => 0%nat)
    (fun _ _ => case_found mem) (fun _ _ _ => RecFound mem mem mem mem mem) ratio 2 rows).
(** the decompositions of C89_case and C89_ratio_case *)
Example C111_components_case fall scale mem ratio r1 r2 : length r1 = 41%nat -> length r2 = 41%nat ->
  dseq fall scale mem ratio (r1 ++ r2) = DecOutModel.output_decompose_line_parallel ref_dgesol (fun _ => 0) 1 false 2 (out_sets fall) scale 2 0 false 2 200 (fun _ _ => 0%nat)
    (fun _ _ => case_found mem) (fun _ _ _ => RecFound mem mem mem mem mem) ratio 8 2 (fun _ i => if Nat.eqb i 0 then [0; 1]%nat else [1; 0]%nat) [r1; r2].
Proof.
  intros L1 L2. replace (r1 ++ r2) with (concat [r1; r2]) by (cbn [concat]; rewrite app_nil_r; reflexivity).
  apply (C111_components ref_dgesol (fun _ => 0) 1 false 2 (out_sets fall) scale 2 0 false 2 200 (fun _ _ => 0%nat) _ _ ratio 8 2 _ [r1; r2]); try (cbn; lia).
  - constructor; [rewrite L1; reflexivity|]. constructor; [rewrite L2; reflexivity|constructor].
  - intros _ i _ _. apply PropDecOut.case_orders.
Qed.
Example C111_short_case fall scale mem ratio r1 : length r1 = 41%nat -> dseq fall scale mem ratio r1 = Exit.
Proof. intros L1. apply C111_short. rewrite L1. vm_compute. lia. Qed.
