(** C89: the files of the decomposition, from the posterior sample and the data to the
    printed numbers, for all data sets and components, in the general, mixed and ratio
    modes; they add up to what the reconstruction prints.  Real arithmetic, no rounding. *)
From Coq Require Import Reals List Arith Lia Lra Permutation ClassicalChoice FunctionalExtensionality.
From Coquelicot Require Import Coquelicot.
From Verif Require Import CPrelude SemisepModel SemisepProofs SemisepProofs2 MatBridge MatBridge2 SemisepProofs3 PartProofs PartProofs2 KernelCalc KernelSpec KernelModel KernelGauss2 PartModel
  CovModel LikeModel PredModel PropPart PropSemisep GlsAlgebra LikeProofs PropLike PredProofs PropPred.
From Verif Require Import PropCov MixSpec PropKernel MixModel PropMix PsdCore PsdKernel PropPsd EndModel SetsModel PropSets OutModel PropOut DecompModel DecompSums PropDecompCov PropDecomp DecOutModel DecOutProofs.
From Verif Require EndProofs PropEnd ParamModel ParamSpec ParamProofs ParamProofs2 SmallModel PropSmall PropParam RecModel RecProofs PropRec PropNorm DecompMat CovProofs CovProofs2 DecompProofs.
Import ListNotations.
Open Scope R_scope.

(** ** What the statements are about *)
Section Spec.
Variable nset : nat.
Variable ds : nat -> lcset.
Variable scale : nat -> nat -> R.
Variable ng : nat.
Variable uniform_var : bool.
Variable nq : nat.
Variable nd_rec : nat.
(** With the parameters pm and the components comps of the lines (comps i j g: component g
    of line j of set i, shape sh g, responses psi of the whole lines): v predicts, for
    time t, the continuum of set i (c = 0) or what component g contributes to line j
    (c = 1 + j).  v is the best linear unbiased prediction if the component takes the
    part of the trend in proportion to its area, or none of it if areas may be negative;
    where [err c], e is the standard error when the trend is known. *)
Definition component_prediction (flag : bool) (sh : nat -> comp -> R -> R) (comps : nat -> nat -> nat -> comp) (psi : nat -> nat -> R -> R) (pm : arr) (SS L : nat -> nat -> R)
    (err : nat -> Prop) (g i c : nat) (t v e : R) : Prop :=
  let d := ds i in
  let target := match c with O => None | S j => Some (sh g (comps i j g)) end in
  let n := set_points ds i in
  let part := match c with O => 1 | S j => if flag then 0 else area (comps i j g) / sumn ng (fun g => area (comps i j g)) end in
  exists u, target_covariance target (psi i) (set_taud uniform_var pm i) (set_sigma uniform_var pm i) (set_sizes ds i) (set_time ds i) t u
    /\ (forall V, best_value n (nq * (1 + s_nl d)) SS L u V (fun w => part * trend_at nq w c t) (s_fall d) v)
    /\ (err c -> exists V, target_variance target (set_taud uniform_var pm i) (set_sigma uniform_var pm i) t V /\ known_trend_error n SS u V e).
(** one file for every component, with every set; P g i row c t v e as in PropOut.v *)
Definition files_written (ps : list (list R)) (P : nat -> nat -> list R -> nat -> R -> R -> R -> Prop) (files : list (list (option (list (list (R * (R * R))))))) : Prop :=
  length files = ng /\ forall g, (g < ng)%nat -> exists outs, nth_error files g = Some outs /\ length outs = nset /\
    forall i, (i < nset)%nat -> exists out, nth_error outs i = Some (Some out) /\ written ds scale 0 nd_rec 0 0 ps (P g) (fun _ _ _ => True) i (out, []).
(** Line by line: the files of the components have the times of pall.txt; their continua
    are that of pall.txt, and their values for a line sum to that of pall.txt, less its
    trend with the printed coefficients if areas may be negative. *)
Definition files_add_up (flag : bool) (pall : list (option (list (list (R * (R * R))) * list (R * R)))) (files : list (list (option (list (list (R * (R * R))))))) : Prop :=
  forall i, (i < nset)%nat -> exists curves trend, nth_error pall i = Some (Some (curves, trend)) /\
  forall c k, (c < 1 + s_nl (ds i))%nat -> (k < Nat.min (3 * s_ncon (ds i)) nd_rec)%nat ->
    exists curve t v e, nth_error curves c = Some curve /\ nth_error curve k = Some (t, (v, e)) /\
    exists parts : nat -> R,
      (forall g, (g < ng)%nat -> exists outs out curve' e', nth_error files g = Some outs /\ nth_error outs i = Some (Some out) /\ nth_error out c = Some curve' /\ nth_error curve' k = Some (t, (parts g, e'))) /\
      match c with
      | O => forall g, (g < ng)%nat -> parts g = v
      | S _ => sumn ng parts = v - (if flag then sumn nq (fun m => fst (nth (c * nq + m) trend (0, 0)) * t ^ m) else 0)
      end.
End Spec.

(** ** Links to the proofs *)
Lemma one_shape type_tf c : 0 < width c -> of_shapes (PropCov.shape_of type_tf c).
Proof.
  intros W. exists 1%nat, (fun _ => Nat.min type_tf 3), (fun _ => c). split; [intros k _; split; [lia|exact W]|].
  intros a. unfold mixed_response. cbn [sumn]. replace (MixSpec.shape_of (Nat.min type_tf 3)) with (PropCov.shape_of type_tf); [ring|].
  destruct type_tf as [|[|[|k]]]; try reflexivity. replace (Nat.min (S (S (S k))) 3) with 3%nat by lia. reflexivity.
Qed.
Lemma one_mixed ty c : (ty < 4)%nat -> 0 < width c -> of_shapes (MixSpec.shape_of ty c).
Proof. intros T W. exists 1%nat, (fun _ => ty), (fun _ => c). split; [auto|]. intros a. unfold mixed_response. cbn [sumn]. ring. Qed.
Lemma part_ext flag ng a b g c : (forall j k, c = S j -> (k < ng)%nat -> flag = false -> a j k = b j k) -> (g < ng)%nat ->
  part_of_trend flag ng a g c = match c with O => 1 | S j => if flag then 0 else b j g / sumn ng (b j) end.
Proof.
  intros H G. unfold part_of_trend. destruct c as [|j]; [reflexivity|]. destruct flag; [reflexivity|]. rewrite (H j g) by auto. rewrite (sumn_ext ng (a j) (b j)) by (intros k K; apply H; auto). reflexivity.
Qed.

Section Rows.
Variable dgesol : nat -> nat -> arr -> arr -> arr.
Variables log_erfc erfc : R -> R.
Variable type_tf : nat.
Variable flag : bool.
Variable ty : nat -> nat.
Variable nset : nat.
Variable ds : nat -> lcset.
Variable scale : nat -> nat -> R.
Variable ng : nat.
Variable uniform : nat.
Variable uniform_var : bool.
Variable nq : nat.
Variable nd_rec : nat.
Variable junk : nat -> nat -> nat.
Variable fd : nat -> list R -> nat -> found.
Variable rd : nat -> list R -> nat -> rec_found.
Notation li := (line_index nset ds ng uniform uniform_var junk).
Notation ci := (con_index uniform_var).
Notation ok := (set_ok nset ds ng uniform uniform_var nq).
Notation described := (set_described nset ds ng uniform uniform_var nq).
Notation pts := (points ds nd_rec).
Notation np := (ParamModel.num_params nset (nlset ds) ng uniform uniform_var).
Notation par := row_values.
Notation comp_pred := (component_prediction ds ng uniform_var nq).
Hypothesis DG : DecompProofs.dgesol_spec dgesol.

Section One.
Variable pm : arr.
Variable i : nat.
Hypothesis I : (i < nset)%nat.
Variable comps : nat -> nat -> nat -> comp.
Variable p' : arr.
Hypothesis SE : same_errors nset ds ng uniform uniform_var pm p' i.
Hypothesis OK : ok pm i.
Variables SS Si L : nat -> nat -> R.
Variable row' : list R.
Variable tall : arr.
Notation d := (ds i).
Notation taud := (set_taud uniform_var pm i).
Lemma stored_at amp j k : (j < s_nl d)%nat -> KernelSpec.stored amp p' (li i j) k = component nset ds ng uniform uniform_var p' amp i j k.
Proof. intros J. apply stored_comp; [exact I|exact J]. Qed.
Lemma area_at j k : (j < s_nl d)%nat -> exp (p' (li i j + 1 + 3 * k)%nat) = area (component nset ds ng uniform uniform_var p' exp i j k).
Proof. intros J. rewrite <- (stored_at exp j k J). reflexivity. Qed.
Lemma plain_row g c k : let psi := fun i j => response (PropCov.shape_of type_tf) ng (comps i j) in
  (forall j k, (j < s_nl d)%nat -> (k < ng)%nat -> component nset ds ng uniform uniform_var p' (decode flag) i j k = comps i j k) ->
  set_good ds ng uniform_var pm log_erfc type_tf comps i -> (forall j k, (j < s_nl d)%nat -> (k < ng)%nat -> resolved log_erfc type_tf taud (comps i j k)) ->
  described pm psi i SS Si L -> (g < ng)%nat -> (c < 1 + s_nl d)%nat -> (k < pts i)%nat ->
  let o := dec_one dgesol log_erfc type_tf flag nset ds ng uniform uniform_var nq nd_rec junk fd rd g row' tall p' i in
  comp_pred flag (fun _ => PropCov.shape_of type_tf) comps psi pm SS L (fun _ => True) g i c (tall (c * pts i + k)%nat) (rec_f o (c * pts i + k)%nat) (rec_fe o (c * pts i + k)%nat).
Proof.
  intros psi EQ GD RS (D & IV & TD) G C KK. cbv zeta.
  pose proof OK as (NQ & NL & NC & ORD & _ & ET).
  destruct (general_K log_erfc type_tf nset ds ng uniform uniform_var junk pm flag comps p' i I SE EQ GD) as [EK SH].
  pose proof (EK' nset ds ng uniform uniform_var pm i I psi p' SE _ EK) as EK2. pose proof EK2 as (H1 & _).
  assert (TQ := taud_eq nset ds ng uniform uniform_var pm i I p' SE). assert (SQ := sig_eq nset ds ng uniform uniform_var pm i I p' SE).
  assert (ST : forall j k, (j < s_nl d)%nat -> (k < ng)%nat -> KernelSpec.stored (decode flag) p' (li i j) k = comps i j k) by (intros j k' J K'; rewrite stored_at by exact J; apply EQ; assumption).
  assert (W : forall j k, (j < s_nl d)%nat -> (k < ng)%nat -> 0 < width (comps i j k)) by (intros j k' J K'; rewrite <- ST by assumption; apply exp_pos).
  assert (PS : forall j, (j < s_nl d)%nat -> response (PropCov.shape_of type_tf) ng (KernelSpec.stored (decode flag) p' (li i j)) = psi i j).
  { intros j J. apply response_ext. intros k' K'. apply ST; assumption. }
  assert (R1 : forall j k, (j < s_nl d)%nat -> (k < ng)%nat -> good1 log_erfc type_tf (exp (p' (ci i + 2)%nat)) (KernelSpec.stored (decode flag) p' (li i j) k)).
  { intros j k' J K'. rewrite TQ, ST by assumption. exact (RS j k' J K'). }
  unfold dec_one.
  pose proof (dec_generic (s_ncon d) (s_tcon d) (s_fe d) (s_em d) (s_nl d) (s_nline d) (s_tline d) (s_fel d) (s_eml d) p' (ci i) (li i)
    (fun j => PropCov.shape_of type_tf (comps i j g)) (psi i)
    (k_lc (pointers log_erfc type_tf flag ci li ng p' i))
    (fun t s j => s_lc (single_pointers log_erfc type_tf flag ci li ng p' i) t s j g) (fun t s j => s_ll (single_pointers log_erfc type_tf flag ci li ng p' i) t s j g)
    (fun t s j => s_self (single_pointers log_erfc type_tf flag ci li ng p' i) t s j g) (fun t s j l => s_ll2 (single_pointers log_erfc type_tf flag ci li ng p' i) t s j l g)
    H1) as GEN.
  destruct (GEN ltac:(intros t s j J; cbv beta; rewrite <- ST by assumption; apply single_lc, R1; assumption)
    ltac:(intros t s j l J Lt; cbv beta; rewrite <- ST, <- PS by assumption; apply single_ll2; [apply R1; assumption|intros; apply R1; assumption])
    ltac:(reflexivity) SH ltac:(intros j J; apply one_shape, W; assumption) (err_pos nset ds ng uniform uniform_var nq junk pm i I p' SE OK)
    dgesol flag ng nq g (s_fall d) (r_US (rd g row' i)) (r_AS (rd g row' i)) (f_L (fd g row' i)) (r_L (rd g row' i)) (r_PE (rd g row' i)) NQ ET (fun _ => pts i) tall
    _ SS Si L DG
    (EndProofs.scalar_filled (s_ncon d) (s_tcon d) (s_fe d) (s_em d) (s_nl d) (s_nline d) (s_tline d) (s_fel d) (s_eml d) p' (ci i) (li i) (psi i) _ EK2 (f_PS (fd g row' i)) (f_mem (fd g row' i)) (f_A (fd g row' i)))
    (cov_to nset ds ng uniform uniform_var junk pm i I psi p' SE SS D) IV TD c k C KK) as (u & U1 & U2 & U3).
  rewrite total_const in U1, U2, U3. rewrite SQ, TQ in U1, U3. exists u. split; [destruct c; exact U1|]. split.
  - intros V. specialize (U2 V). rewrite (part_ext _ _ _ (fun j k => area (comps i j k))) in U2; [exact U2| |exact G].
    intros j k' E K' FL. subst c. cbv beta. rewrite area_at by lia. rewrite <- (EQ j k') by (assumption || lia). rewrite FL. reflexivity.
  - intros _. destruct U3 as (V & V1 & V2).
    { intros j -> t. rewrite <- (ST j g) by (assumption || lia). rewrite <- TQ. apply single_self, R1; [lia|exact G]. }
    exists V. split; [destruct c; exact V1|exact V2].
Qed.
End One.
Section Two.
Variable pm : arr.
Variable i : nat.
Hypothesis I : (i < nset)%nat.
Variable comps : nat -> nat -> nat -> comp.
Hypothesis OK : ok pm i.
Variables SS Si L : nat -> nat -> R.
Variable row' : list R.
Variable tall : arr.
Notation d := (ds i).
Notation taud := (set_taud uniform_var pm i).
Lemma mixed_row g c k : comps = component nset ds ng uniform uniform_var pm exp -> let psi := fun i j => mixed_response ng ty (comps i j) in
  log_erfc_correct log_erfc -> erfc_correct erfc -> digits ng ty ->
  (forall j, (j < s_nl d)%nat -> clear_scales' taud ng ty (comps i j)) ->
  described pm psi i SS Si L -> (g < ng)%nat -> (c < 1 + s_nl d)%nat -> (k < pts i)%nat ->
  let o := dec_one_mmap dgesol log_erfc erfc type_tf ty nset ds ng uniform uniform_var nq nd_rec junk fd rd g row' tall pm i in
  comp_pred false (fun g => MixSpec.shape_of (ty g)) comps psi pm SS L
    (fun c => c = 0%nat \/ (ty g = type_tf /\ forall j, c = Datatypes.S j -> (2 <= type_tf)%nat -> rates_apart taud (comps i j g)))
    g i c (tall (c * pts i + k)%nat) (rec_f o (c * pts i + k)%nat) (rec_fe o (c * pts i + k)%nat).
Proof.
  intros EC psi HL HE DI CS (D & IV & TD) G C KK. cbv zeta. pose proof (same_self nset ds ng uniform uniform_var pm i) as SE.
  pose proof OK as (NQ & NL & NC & ORD & _ & ET).
  assert (CS' : forall j, (j < s_nl d)%nat -> clear_scales' taud ng ty (component nset ds ng uniform uniform_var pm exp i j)) by (rewrite <- EC; exact CS).
  assert (DM : digits ng ty) by exact DI.
  destruct (mixed_K log_erfc erfc ty nset ds ng uniform uniform_var junk pm i I HL HE DI CS' (f_blc (fd g row' i)) (f_bll (fd g row' i))) as [EK SH].
  rewrite <- EC in EK, SH. 
  pose proof (EK' nset ds ng uniform uniform_var pm i I psi pm SE _ EK) as EK2. pose proof EK2 as (H1 & _).
  assert (TQ := taud_eq nset ds ng uniform uniform_var pm i I pm SE). assert (SQ := sig_eq nset ds ng uniform uniform_var pm i I pm SE).
  assert (ST : forall j, (j < s_nl d)%nat -> KernelSpec.stored exp pm (li i j) = comps i j).
  { intros j J. apply functional_extensionality. intros k'. rewrite stored_comp by (exact I || exact J). rewrite EC. reflexivity. }
  assert (CS2 : forall j, (j < s_nl d)%nat -> clear_scales' (exp (pm (ci i + 2)%nat)) ng ty (KernelSpec.stored exp pm (li i j))) by (intros j J; rewrite TQ, ST by exact J; apply CS, J).
  assert (CS0 : forall j, (j < s_nl d)%nat -> clear_scales (exp (pm (ci i + 2)%nat)) ng ty (KernelSpec.stored exp pm (li i j))).
  { intros j J k' K' T. destruct (CS2 j J k' K' T) as [E|[_ E]]; [left|right]; exact E. }
  unfold dec_one_mmap.
  pose proof (dec_generic (s_ncon d) (s_tcon d) (s_fe d) (s_em d) (s_nl d) (s_nline d) (s_tline d) (s_fel d) (s_eml d) pm (ci i) (li i)
    (fun j => MixSpec.shape_of (ty g) (comps i j g)) (psi i)
    (k_lc (mixed_kernels log_erfc erfc ci li ng ty pm i (f_blc (fd g row' i)) (f_bll (fd g row' i))))
    (fun t s j => s_lc (single_pointers_mmap log_erfc erfc type_tf false ci li ng ty pm i) t s j g) (fun t s j => s_ll (single_pointers_mmap log_erfc erfc type_tf false ci li ng ty pm i) t s j g)
    (fun t s j => s_self (single_pointers_mmap log_erfc erfc type_tf false ci li ng ty pm i) t s j g) (fun t s j l => s_ll2 (single_pointers_mmap log_erfc erfc type_tf false ci li ng ty pm i) t s j l g)
    H1) as GEN.
  destruct (GEN ltac:(intros t s j J; cbv beta; rewrite <- ST by assumption; exact (mix_lc log_erfc erfc HL type_tf ci li ng ty pm i t s j g G DI (CS0 j J)))
    ltac:(intros t s j l J Lt; unfold psi; cbv beta; rewrite <- !ST by assumption; exact (mix_ll2 log_erfc erfc HL HE type_tf ci li ng ty pm i t s j l g G DI (CS2 j J) (CS2 l Lt)))
    ltac:(reflexivity) SH ltac:(intros j J; apply one_mixed; [apply DM, G|rewrite <- ST by exact J; apply exp_pos]) (err_pos nset ds ng uniform uniform_var nq junk pm i I pm SE OK)
    dgesol false ng nq g (s_fall d) (r_US (rd g row' i)) (r_AS (rd g row' i)) (f_L (fd g row' i)) (r_L (rd g row' i)) (r_PE (rd g row' i)) NQ ET (fun _ => pts i) tall
    _ SS Si L DG
    (EndProofs.array_filled (s_ncon d) (s_tcon d) (s_fe d) (s_em d) (s_nl d) (s_nline d) (s_tline d) (s_fel d) (s_eml d) pm (ci i) (li i) (psi i) _ EK2
       (f_lc (fd g row' i)) (f_ll (fd g row' i)) (f_PS (fd g row' i)) (f_mem (fd g row' i)) (f_A (fd g row' i)))
    (cov_to nset ds ng uniform uniform_var junk pm i I psi pm SE SS D) IV TD c k C KK) as (u & U1 & U2 & U3).
  rewrite total_const in U1, U2, U3. rewrite SQ, TQ in U1, U3. exists u. split; [destruct c; exact U1|]. split.
  - intros V. specialize (U2 V). rewrite (part_ext _ _ _ (fun j k => area (comps i j k))) in U2; [exact U2| |exact G].
    intros j k' E K' _. subst c. cbv beta. rewrite (area_at i I pm) by lia. rewrite <- EC. reflexivity.
  - intros HC. destruct U3 as (V & V1 & V2).
    { intros j -> t. destruct HC as [HC|[E R]]; [discriminate|]. specialize (R j eq_refl).
      assert (J : (j < s_nl d)%nat) by lia. rewrite <- (ST j J) in R |- *. rewrite <- TQ in R |- *.
      cbn [single_pointers_mmap s_self]. specialize (DI g G).
      pose proof (single_self log_erfc type_tf false ci li ng pm i t t j g) as X. cbn [decode] in X.
      rewrite E in *. destruct type_tf as [|[|[|[|tt]]]]; [| | | |lia]; cbn [MixSpec.shape_of PropCov.shape_of] in *; apply X; cbn [good1]; auto; apply R; lia. }
    exists V. split; [destruct c; exact V1|exact V2].
Qed.
End Two.

(** ** The program *)
Variable ps : list (list R).
(** as in PropOut.v: for set i and a row of the sample, the covariance matrix of the data,
    its inverse, and the trends *)
Variables SS Si L : nat -> list R -> nat -> nat -> R.
Notation sample := (sample_ok nset ds ng uniform uniform_var nd_rec ps).
Notation row_described psi i row := (ok (par row) i /\ described (par row) (psi row) i (SS i row) (Si i row) (L i row)).

Notation comps_g row := (component nset ds ng uniform uniform_var (par row) (decode flag)).
Notation psi_g := (fun row i j => response (PropCov.shape_of type_tf) ng (comps_g row i j)).
Theorem C89_general jk T order : sample -> (1 <= T)%nat ->
  (forall i, (i < nset)%nat -> set_in_order ds 0 0 i /\ (forall g, (g < ng)%nat -> Permutation (order g i) (seq 0 T)) /\ forall row, In row ps ->
     row_described psi_g i row /\ set_good ds ng uniform_var (par row) log_erfc type_tf (comps_g row) i
     /\ forall j g, (j < s_nl (ds i))%nat -> (g < ng)%nat -> resolved log_erfc type_tf (set_taud uniform_var (par row) i) (comps_g row i j g)) ->
  exists files, output_decompose_line_parallel dgesol log_erfc type_tf flag nset ds scale ng uniform uniform_var nq nd_rec junk fd rd false jk T order ps = Ok files
    /\ files_written nset ds scale ng nd_rec ps (fun g i row => comp_pred flag (fun _ => PropCov.shape_of type_tf) (comps_g row) (psi_g row) (par row) (SS i row) (L i row) (fun _ => True) g i) files.
Proof.
  intros (HS & HN & HD) HT H. apply components_written; auto.
  - intros i I. destruct (H i I) as (H1 & H2 & _). auto.
  - intros g i row tall G I RI. cbv zeta. intros c k C K. destruct (H i I) as (_ & _ & HR). destruct (HR row RI) as ((OK & D) & GD & RS).
    unfold row_params. apply (plain_row (par row) i I (comps_g row) (par row) (same_self nset ds ng uniform uniform_var (par row) i) OK (SS i row) (Si i row) (L i row)); auto.
Qed.

Notation comps_r row := (ratio_component nset ds ng uniform uniform_var (par row)).
Notation psi_r := (fun row i j => response (PropCov.shape_of type_tf) ng (comps_r row i j)).
Lemma ratio_row row : (1 <= ng)%nat -> forall i, (i < nset)%nat -> let p' := row_params nset ds ng uniform uniform_var true row in
  same_errors nset ds ng uniform uniform_var (par row) p' i /\
  forall j k, (j < s_nl (ds i))%nat -> (k < ng)%nat -> component nset ds ng uniform uniform_var p' (decode false) i j k = comps_r row i j k.
Proof.
  intros NG i I. unfold row_params.
  destruct (PropSmall.C53_inplace Rplus ng (ParamModel.num_params_var nset uniform_var) (ParamSpec.nlines nset (nlset ds) uniform) 0 (par row) NG) as (M' & E & TR & _).
  replace (ParamModel.num_params_line nset (nlset ds) ng uniform) with (ParamSpec.nlines nset (nlset ds) uniform * (1 + 3 * ng))%nat by (rewrite ParamProofs.npl_lines; unfold ParamModel.per_line; lia).
  rewrite E.
  assert (NP : (ParamModel.num_params_var nset uniform_var + ParamSpec.nlines nset (nlset ds) uniform * (1 + 3 * ng))%nat = np) by (unfold ParamModel.num_params; rewrite ParamProofs.npl_lines; unfold ParamModel.per_line; lia).
  rewrite NP in TR. exact (ratio_pt nset ds ng uniform uniform_var (par row) M' TR i I).
Qed.
Theorem C89_ratio jk T order : sample -> (1 <= T)%nat -> (1 <= ng)%nat -> flag = false ->
  (forall i, (i < nset)%nat -> set_in_order ds 0 0 i /\ (forall g, (g < ng)%nat -> Permutation (order g i) (seq 0 T)) /\ forall row, In row ps ->
     row_described psi_r i row /\ set_good ds ng uniform_var (par row) log_erfc type_tf (comps_r row) i
     /\ forall j g, (j < s_nl (ds i))%nat -> (g < ng)%nat -> resolved log_erfc type_tf (set_taud uniform_var (par row) i) (comps_r row i j g)) ->
  exists files, output_decompose_line_parallel dgesol log_erfc type_tf flag nset ds scale ng uniform uniform_var nq nd_rec junk fd rd true jk T order ps = Ok files
    /\ files_written nset ds scale ng nd_rec ps (fun g i row => comp_pred flag (fun _ => PropCov.shape_of type_tf) (comps_r row) (psi_r row) (par row) (SS i row) (L i row) (fun _ => True) g i) files.
Proof.
  intros (HS & HN & HD) HT NG FL H. apply components_written; auto.
  - intros i I. destruct (H i I) as (H1 & H2 & _). auto.
  - intros g i row tall G I RI. cbv zeta. intros c k C K. destruct (H i I) as (_ & _ & HR). destruct (HR row RI) as ((OK & D) & GD & RS).
    destruct (ratio_row row NG i I) as [SE EQ].
    apply (plain_row (par row) i I (comps_r row) _ SE OK (SS i row) (Si i row) (L i row)); auto. rewrite FL. exact EQ.
Qed.

Notation comps_m row := (component nset ds ng uniform uniform_var (par row) exp).
Notation psi_m := (fun row i j => mixed_response ng ty (comps_m row i j)).
(** the errors of the lines only where the component has the shape type_tf
    (C67_variance_refuted) *)
Theorem C89_mixed jk T order : sample -> (1 <= T)%nat -> log_erfc_correct log_erfc -> erfc_correct erfc -> digits ng ty ->
  (forall i, (i < nset)%nat -> set_in_order ds 0 0 i /\ (forall g, (g < ng)%nat -> Permutation (order g i) (seq 0 T)) /\ forall row, In row ps ->
     row_described psi_m i row /\ forall j, (j < s_nl (ds i))%nat -> clear_scales' (set_taud uniform_var (par row) i) ng ty (comps_m row i j)) ->
  exists files, output_decompose_line_parallel_mmap dgesol log_erfc erfc type_tf ty nset ds scale ng uniform uniform_var nq nd_rec junk fd rd jk T order ps = Ok files
    /\ files_written nset ds scale ng nd_rec ps (fun g i row => comp_pred false (fun g => MixSpec.shape_of (ty g)) (comps_m row) (psi_m row) (par row) (SS i row) (L i row)
         (fun c => c = 0%nat \/ (ty g = type_tf /\ forall j, c = S j -> (2 <= type_tf)%nat -> rates_apart (set_taud uniform_var (par row) i) (comps_m row i j g))) g i) files.
Proof.
  intros (HS & HN & HD) HT HL HE DI H. apply components_written; auto.
  - intros i I. destruct (H i I) as (H1 & H2 & _). auto.
  - intros g i row tall G I RI. cbv zeta. intros c k C K. destruct (H i I) as (_ & _ & HR). destruct (HR row RI) as ((OK & D) & CS).
    unfold row_params. apply (mixed_row (par row) i I (comps_m row) OK (SS i row) (Si i row) (L i row)); auto.
Qed.
End Rows.
Print Assumptions C89_general.
Print Assumptions C89_ratio.
Print Assumptions C89_mixed.

(** ** The files add up *)
Section Sum.
Variable nset : nat.
Variable ds : nat -> lcset.
Variable scale : nat -> nat -> R.
Variable ng : nat.
Variable uniform : nat.
Variable uniform_var : bool.
Variable nq : nat.
Variable nd_rec : nat.
Variable ratio : bool.
Variable ps : list (list R).
Notation np := (ParamModel.num_params nset (nlset ds) ng uniform uniform_var).
Notation tr := (read_row nset ds ng uniform uniform_var ratio).
Notation params := (row_params nset ds ng uniform uniform_var).
Notation pts := (points ds nd_rec).
Hypothesis HS : List.Forall (fun r => length r = np) ps.
Hypothesis HN : (1 <= length ps)%nat.
Hypothesis HD : (2 <= nd_rec)%nat.
Hypothesis HG : (1 <= ng)%nat \/ ratio = false.
Lemma files_sum flag (rec : list R -> arr -> arr -> nat -> rec_out) (dec : nat -> list R -> arr -> arr -> nat -> rec_out) jk jk' T order order' : (1 <= T)%nat ->
  (forall i, (i < nset)%nat -> set_in_order ds 0 0 i /\ Permutation (order i) (seq 0 T) /\ forall g, (g < ng)%nat -> Permutation (order' g i) (seq 0 T)) ->
  (forall i row tall, (i < nset)%nat -> In row ps ->
     adds_up flag ng nq (s_nl (ds i)) (fun _ => pts i) tall (fun g => dec g (tr row) tall (params ratio row) i) (rec row tall (params ratio row) i)) ->
  exists pall files, output_all nset ds scale ng uniform uniform_var nq nd_rec 0 0 rec ratio jk (length ps) T order (concat ps) = Ok pall
    /\ all_components nset ds scale ng uniform uniform_var nd_rec dec ratio jk' T order' ps = Ok files
    /\ files_add_up nset ds ng nq nd_rec flag pall files.
Proof.
  intros HT HO HA.
  set (F := fun i => output_set nset ds scale ng uniform uniform_var nq nd_rec 0 0 rec ratio jk (length ps) T (order i) (concat ps) i).
  set (FG := fun g i => output_set nset ds scale ng uniform uniform_var 0 nd_rec 0 0 (dec g) false jk' (length ps) T (order' g i) (concat (map tr ps)) i).
  pose proof (read_all nset ds ng uniform uniform_var ratio ps) as HS'.
  assert (LP : length (map tr ps) = length ps) by apply map_length.
  assert (HN' : (1 <= length (map tr ps))%nat) by (rewrite LP; exact HN).
  assert (X1 : forall i, (i < nset)%nat -> exists x, F i = Ok x /\ F i = Ok x).
  { intros i I. destruct (HO i I) as (IO & O1 & _). destruct (times_ok ds nd_rec 0 0 ps HN HD i IO) as (first & step & _ & ET & _).
    destruct (set_rows nset ds scale ng uniform uniform_var nq nd_rec 0 0 rec ratio ps HS HN jk T (order i) i first step _ HT O1 ET eq_refl) as (out & E & _). exists (Some out). auto. }
  destruct (sequence_all nd_rec ps HN HD F (fun i x => F i = Ok x) nset X1) as (pall & E1 & L1 & N1).
  assert (X2 : forall g, (g < ng)%nat -> exists outs, component_file nset ds scale ng uniform uniform_var nd_rec dec ratio jk' T (order' g) ps g = Ok outs /\
    (component_file nset ds scale ng uniform uniform_var nd_rec dec ratio jk' T (order' g) ps g = Ok outs /\
     forall i, (i < nset)%nat -> exists x, nth_error outs i = Some (option_map fst x) /\ FG g i = Ok x)).
  { intros g G.
    assert (X3 : forall i, (i < nset)%nat -> exists x, FG g i = Ok x /\ FG g i = Ok x).
    { intros i I. destruct (HO i I) as (IO & _ & O2). destruct (times_ok ds nd_rec 0 0 ps HN HD i IO) as (first & step & _ & ET & _).
      destruct (set_rows nset ds scale ng uniform uniform_var 0 nd_rec 0 0 (dec g) false (map tr ps) HS' HN' jk' T (order' g i) i first step _ HT (O2 g G) ET eq_refl) as (out & E & _).
      rewrite LP in E. exists (Some out). auto. }
    destruct (sequence_all nd_rec ps HN HD (FG g) (fun i x => FG g i = Ok x) nset X3) as (outs & E2 & L2 & N2).
    assert (E3 : component_file nset ds scale ng uniform uniform_var nd_rec dec ratio jk' T (order' g) ps g = Ok (map (option_map fst) outs)).
    { unfold component_file, output_all. fold (FG g). rewrite E2. reflexivity. }
    eexists. split; [exact E3|]. split; [exact E3|]. intros i I. destruct (N2 i I) as (x & Y1 & Y2). exists x. split; [rewrite nth_error_map, Y1; reflexivity|exact Y2]. }
  destruct (sequence_all nd_rec ps HN HD _ _ ng X2) as (files & E2 & L2 & N2).
  exists pall, files. split; [exact E1|]. split; [exact E2|]. intros i I.
  destruct (HO i I) as (IO & O1 & O2). destruct (times_ok ds nd_rec 0 0 ps HN HD i IO) as (first & step & _ & ET & _).
  set (tall := fun a => nth a (concat (repeat (map (fun k => first + INR k * step) (seq 0 (pts i))) (1 + s_nl (ds i)))) 0).
  destruct (set_rows nset ds scale ng uniform uniform_var nq nd_rec 0 0 rec ratio ps HS HN jk T (order i) i first step tall HT O1 ET eq_refl) as ([curves trend] & E & TA & R1 & R2).
  destruct (N1 i I) as (x & Y1 & Y2). unfold F in Y2. rewrite E in Y2. injection Y2 as <-.
  exists curves, trend. split; [exact Y1|].
  assert (NN : Nat.min (3 * s_ncon (ds i)) nd_rec = pts i) by (unfold points, RecModel.rec_count; lia). rewrite NN.
  intros c k C K. destruct (R1 c k C K) as (curve & e & R3 & R4). cbn [fst] in R3.
  exists curve. eexists. eexists. exists e. split; [exact R3|]. split; [exact R4|].
  set (t := first + INR k * step). set (r := (c * pts i + k)%nat) in *.
  set (val := fun g row => rec_f (dec g (tr row) tall (params ratio row) i) r).
  exists (fun g => PropRec.mean_of (map (val g) ps) * scale i c). split.
  - intros g G. destruct (N2 g G) as (outs & Z1 & _ & Z2). destruct (Z2 i I) as (x & Z3 & Z4).
    destruct (set_rows nset ds scale ng uniform uniform_var 0 nd_rec 0 0 (dec g) false (map tr ps) HS' HN' jk' T (order' g i) i first step tall HT (O2 g G) ET eq_refl) as (out & E3 & _ & R5 & _).
    rewrite LP in E3. unfold FG in Z4. rewrite E3 in Z4. injection Z4 as <-. destruct (R5 c k C K) as (curve' & e' & W1 & W2).
    exists outs, (fst out), curve', e'. split; [exact Z1|]. split; [exact Z3|]. split; [exact W1|].
    rewrite W2. unfold t. rewrite map_map. do 5 f_equal. apply map_ext_in. intros row RI. unfold val.
    change (row_params nset ds ng uniform uniform_var false (tr row)) with (row_values (tr row)).
    rewrite read_values; [reflexivity|exact HG|exact (proj1 (List.Forall_forall _ _) HS row RI)].
  - assert (AU : forall row, In row ps ->
      (c = 0%nat -> forall g, (g < ng)%nat -> val g row = rec_f (rec row tall (params ratio row) i) r) /\
      ((0 < c)%nat -> sumn ng (fun g => val g row) = rec_f (rec row tall (params ratio row) i) r
         - (if flag then trend_at nq (rec_yq (rec row tall (params ratio row) i)) c t else 0))).
    { intros row RI. pose proof (HA i row tall I RI c k C K) as H. cbv zeta in H. rewrite total_const in H. fold r in H.
      unfold r in H. rewrite (TA c k C K) in H. exact H. }
    assert (CZ : c = 0%nat -> forall g, (g < ng)%nat ->
      PropRec.mean_of (map (val g) ps) * scale i c = PropRec.mean_of (map (fun row => rec_f (rec row tall (params ratio row) i) r) ps) * scale i c).
    { intros C0 g G. f_equal. f_equal. apply map_ext_in. intros row RI. apply (AU row RI); assumption. }
    assert (CS : (0 < c)%nat -> sumn ng (fun g => PropRec.mean_of (map (val g) ps) * scale i c) =
      PropRec.mean_of (map (fun row => rec_f (rec row tall (params ratio row) i) r) ps) * scale i c
      - (if flag then sumn nq (fun m => fst (nth (c * nq + m) trend (0, 0)) * t ^ m) else 0)).
    { intros C0. rewrite (sumn_ext ng _ (fun g => scale i c * PropRec.mean_of (map (val g) ps))) by (intros; ring). rewrite sumn_scal, <- mean_sum.
      rewrite (map_ext_in (fun row => sumn ng (fun g => val g row)) (fun row => rec_f (rec row tall (params ratio row) i) r
         + (if flag then trend_at nq (rec_yq (rec row tall (params ratio row) i)) c t else 0) * -1)).
      2:{ intros row RI. rewrite (proj2 (AU row RI) C0). ring. }
      rewrite mean_lin, mean_mult. destruct flag.
      - assert (TT : PropRec.mean_of (map (fun row => trend_at nq (rec_yq (rec row tall (params ratio row) i)) c t) ps) * scale i c = sumn nq (fun m => fst (nth (c * nq + m) trend (0, 0)) * t ^ m)).
        { unfold trend_at. rewrite (mean_sum (fun m row => rec_yq (rec row tall (params ratio row) i) (c * nq + m)%nat * t ^ m) nq ps).
          rewrite Rmult_comm, <- sumn_scal. apply sumn_ext. intros m M. destruct (R2 c m C M) as (e2 & W). cbn [snd] in W.
          rewrite (nth_error_nth _ _ _ W). cbn [fst]. rewrite mean_mult. ring. }
        rewrite <- TT. ring.
      - rewrite mean_zero. ring. }
    destruct c as [|j]; [apply CZ; reflexivity|apply CS; lia].
Qed.
End Sum.

Section AddUp.
Context {IP : Type}.
Variable dsytrf : nat -> (nat -> nat -> R) -> (nat -> nat -> R) * IP.
Variable dsytri : nat -> (nat -> nat -> R) -> IP -> nat -> nat -> R.
Variables dtrtri dlauum : nat -> arr -> arr.
Variable dgesol : nat -> nat -> arr -> arr -> arr.
Variables log_erfc erfc : R -> R.
Variable type_tf : nat.
Variable flag : bool.
Variable ty : nat -> nat.
Variable nset : nat.
Variable ds : nat -> lcset.
Variable scale : nat -> nat -> R.
Variable ng : nat.
Variable uniform : nat.
Variable uniform_var : bool.
Variable nq : nat.
Variable nd_rec : nat.
Variable junk : nat -> nat -> nat.
Variable fd0 : list R -> nat -> found.
Variable rd0 : list R -> nat -> rec_found.
Variable fd : nat -> list R -> nat -> found.
Variable rd : nat -> list R -> nat -> rec_found.
Notation li := (line_index nset ds ng uniform uniform_var junk).
Notation ci := (con_index uniform_var).
Notation ok := (set_ok nset ds ng uniform uniform_var nq).
Notation described := (set_described nset ds ng uniform uniform_var nq).
Notation pts := (points ds nd_rec).
Notation par := row_values.
Hypothesis LS : dsytr_spec dsytrf dsytri.
Hypothesis LT : dtrtri_spec dtrtri.
Hypothesis LL : dlauum_spec dlauum.
Hypothesis DG : DecompProofs.dgesol_spec dgesol.
Hypothesis NG : (1 <= ng)%nat.

Section One.
Variable pm : arr.
Variable i : nat.
Hypothesis I : (i < nset)%nat.
Variable comps : nat -> nat -> nat -> comp.
Variable p' : arr.
Hypothesis SE : same_errors nset ds ng uniform uniform_var pm p' i.
Hypothesis OK : ok pm i.
Variables SS Si L : nat -> nat -> R.
Variables row row' : list R.
Variable tall : arr.
Hypothesis AP : separate ds (fd0 row) i.
Notation d := (ds i).
Notation taud := (set_taud uniform_var pm i).
Lemma points_total : all_points (s_ncon d) (s_nl d) (s_nline d) = total (narr_of (s_ncon d) (s_nline d)) (1 + s_nl d).
Proof. rewrite EndProofs.n_points, EndProofs.n_tot. reflexivity. Qed.
Lemma plain_sum : let psi := fun i j => response (PropCov.shape_of type_tf) ng (comps i j) in
  (forall j k, (j < s_nl d)%nat -> (k < ng)%nat -> component nset ds ng uniform uniform_var p' (decode flag) i j k = comps i j k) ->
  set_good ds ng uniform_var pm log_erfc type_tf comps i -> (forall j k, (j < s_nl d)%nat -> (k < ng)%nat -> (2 <= type_tf)%nat -> rates_apart taud (comps i j k)) ->
  described pm psi i SS Si L ->
  adds_up flag ng nq (s_nl d) (fun _ => pts i) tall
    (fun g => dec_one dgesol log_erfc type_tf flag nset ds ng uniform uniform_var nq nd_rec junk fd rd g row' tall p' i)
    (rec_one dsytrf dsytri dtrtri dlauum log_erfc type_tf flag nset ds ng uniform uniform_var nq nd_rec junk fd0 rd0 row tall p' i).
Proof.
  intros psi EQ GD RA (D & IV & TD). pose proof OK as (NQ & NL & NC & ORD & _ & ET).
  destruct (general_K log_erfc type_tf nset ds ng uniform uniform_var junk pm flag comps p' i I SE EQ GD) as [EK SH].
  pose proof (EK' nset ds ng uniform uniform_var pm i I psi p' SE _ EK) as EK2.
  pose proof (cov_to nset ds ng uniform uniform_var junk pm i I psi p' SE SS D) as D'.
  pose proof (err_pos nset ds ng uniform uniform_var nq junk pm i I p' SE OK) as EP.
  destruct (EndProofs.pd (s_ncon d) (s_tcon d) (s_fe d) (s_em d) (s_nl d) (s_nline d) (s_tline d) (s_fel d) (s_eml d) p' (ci i) (li i) (psi i) SH EP SS D') as [SY PD].
  assert (TQ := taud_eq nset ds ng uniform uniform_var pm i I p' SE).
  assert (ST : forall j k, (j < s_nl d)%nat -> (k < ng)%nat -> KernelSpec.stored (decode flag) p' (li i j) k = comps i j k) by (intros j k' J K'; rewrite stored_comp by (exact I || exact J); apply EQ; assumption).
  unfold dec_one, rec_one, rec_set, rec_with. cbv zeta. rewrite Nat.add_0_r.
  set (PCw := put _ _ _ _). assert (STW : PropPart.stored PCw (f_A (fd0 row i)) (set_points ds i) (fun a b => SS a b / ((exp (p' (ci i + 1)%nat) * sqrt (exp (p' (ci i + 2)%nat))) * (exp (p' (ci i + 1)%nat) * sqrt (exp (p' (ci i + 2)%nat)))))).
  { apply EndProofs.filled_stored with (psi := psi i) (fe_con := s_fe d) (error_mean_con := s_em d) (tcon := s_tcon d) (tline := s_tline d) (fe_line := s_fel d) (error_mean_line := s_eml d) (idx_line := li i); [|exact D'].
    apply EndProofs.scalar_filled. exact EK2. }
  clearbody PCw. rewrite points_total.
  apply (C66_components_add_up dsytrf dsytri dtrtri dlauum dgesol LS LT LL DG nq (s_nl d) (s_ncon d) ng (s_tcon d) (s_fe d) (s_em d) (s_nline d) (s_tline d) (s_fall d) p' (ci i) (li i)
    (fun _ => pts i) tall SS Si L PCw (f_A (fd0 row i)) (f_wk (fd0 row i))
    (fun g => scalar_matrix (s_ncon d) (s_tcon d) (s_fe d) (s_em d) (s_nl d) (s_nline d) (s_tline d) (s_fel d) (s_eml d) (pointers log_erfc type_tf flag ci li ng p' i) p' (ci i) (li i) (f_PS (fd g row' i)) (f_mem (fd g row' i)) (f_A (fd g row' i)))
    NQ NL NC NG) with (US1 := fun g => r_US (rd g row' i))
      (AS1 := fun g => set_covar_Amat_line_single (s_nl d) p' (ci i) (k_lc (pointers log_erfc type_tf flag ci li ng p' i)) (fun t s j => s_ll (single_pointers log_erfc type_tf flag ci li ng p' i) t s j g)
          (fun t s j l => s_ll2 (single_pointers log_erfc type_tf flag ci li ng p' i) t s j l g) (fun t s j => s_self (single_pointers log_erfc type_tf flag ci li ng p' i) t s j g) (fun _ => pts i) tall (r_AS (rd g row' i)))
      (L1 := fun g => f_L (fd g row' i)) (Lr1 := fun g => r_L (rd g row' i)) (UT1 := fun g => r_PE (rd g row' i)).
  - pose proof (EndProofs.times_proper (s_ncon d) (s_tcon d) (s_fe d) (s_em d) (s_nl d) (s_nline d) (s_fel d) (s_eml d) p' (ci i) (li i) EP ORD) as PT. rewrite Nat.add_0_r in PT. exact PT.
  - exact ET.
  - rewrite EndProofs.n_tot. exact SY.
  - rewrite EndProofs.n_tot. exact PD.
  - rewrite EndProofs.n_tot. exact IV.
  - intros a b A B. pose proof (EndProofs.con_block (s_ncon d) (s_tcon d) (s_fe d) (s_em d) (s_nl d) (s_nline d) (s_tline d) (s_fel d) (s_eml d) p' (ci i) (li i) (psi i) SS a b D' A B) as CB.
    rewrite Nat.add_0_r in CB. exact CB.
  - rewrite EndProofs.n_tot. exact STW.
  - intros g G. rewrite EndProofs.n_tot. refine (filled_zero _ _ _ _ _ _ _ _ _ _ _ _ (psi i) nq NQ _ SS _ D'). apply EndProofs.scalar_filled. exact EK2.
  - rewrite EndProofs.n_tot. exact AP.
  - exact TD.
  - reflexivity.
  - intros j g J G TT. rewrite ST, TQ by assumption. apply RA; assumption.
  - intros j J TT k KK. rewrite ST, TQ by assumption. unfold set_good in GD. destruct type_tf as [|[|t]]; [lia|lia|]. apply GD; assumption.
Qed.
Lemma mixed_sum : p' = pm -> comps = component nset ds ng uniform uniform_var pm exp -> let psi := fun i j => mixed_response ng ty (comps i j) in
  log_erfc_correct log_erfc -> erfc_correct erfc -> digits ng ty ->
  (forall j, (j < s_nl d)%nat -> clear_scales' taud ng ty (comps i j)) ->
  described pm psi i SS Si L ->
  adds_up false ng nq (s_nl d) (fun _ => pts i) tall
    (fun g => dec_one_mmap dgesol log_erfc erfc type_tf ty nset ds ng uniform uniform_var nq nd_rec junk fd rd g row' tall p' i)
    (rec_one_mmap dsytrf dsytri dtrtri dlauum log_erfc erfc ty nset ds ng uniform uniform_var nq nd_rec junk fd0 rd0 row tall p' i).
Proof.
  intros PP EC psi HL HE DI CS (D & IV & TD). pose proof OK as (NQ & NL & NC & ORD & _ & ET).
  assert (CS' : forall j, (j < s_nl d)%nat -> clear_scales' taud ng ty (component nset ds ng uniform uniform_var pm exp i j)) by (rewrite <- EC; exact CS).
  assert (EKS : forall b1 b2, EndProofs.exact_kernels (exp (pm (ci i + 2)%nat)) (s_nl d) (psi i) (mixed_kernels log_erfc erfc ci li ng ty pm i b1 b2)
    /\ forall j, (j < s_nl d)%nat -> of_shapes (psi i j)).
  { intros b1 b2. destruct (mixed_K log_erfc erfc ty nset ds ng uniform uniform_var junk pm i I HL HE DI CS' b1 b2) as [EK SH]. rewrite <- EC in EK, SH.
    split; [|exact SH]. exact (EK' nset ds ng uniform uniform_var pm i I psi pm (same_self nset ds ng uniform uniform_var pm i) _ EK). }
  rewrite <- PP in EKS.
  pose proof (cov_to nset ds ng uniform uniform_var junk pm i I psi p' SE SS D) as D'.
  pose proof (err_pos nset ds ng uniform uniform_var nq junk pm i I p' SE OK) as EP.
  destruct (EKS (fun _ => 0) (fun _ => 0)) as [_ SH].
  destruct (EndProofs.pd (s_ncon d) (s_tcon d) (s_fe d) (s_em d) (s_nl d) (s_nline d) (s_tline d) (s_fel d) (s_eml d) p' (ci i) (li i) (psi i) SH EP SS D') as [SY PD].
  unfold dec_one_mmap, rec_one_mmap, rec_set_mmap, rec_with. cbv zeta. rewrite Nat.add_0_r.
  set (PCw := put _ _ _ _). assert (STW : PropPart.stored PCw (f_A (fd0 row i)) (set_points ds i) (fun a b => SS a b / ((exp (p' (ci i + 1)%nat) * sqrt (exp (p' (ci i + 2)%nat))) * (exp (p' (ci i + 1)%nat) * sqrt (exp (p' (ci i + 2)%nat)))))).
  { apply EndProofs.filled_stored with (psi := psi i) (fe_con := s_fe d) (error_mean_con := s_em d) (tcon := s_tcon d) (tline := s_tline d) (fe_line := s_fel d) (error_mean_line := s_eml d) (idx_line := li i); [|exact D'].
    apply EndProofs.array_filled. apply EKS. }
  clearbody PCw. rewrite points_total.
  apply (C66_mixed_components_add_up dsytrf dsytri dtrtri dlauum dgesol LS LT LL DG nq (s_nl d) (s_ncon d) ng (s_tcon d) (s_fe d) (s_em d) (s_nline d) (s_tline d) (s_fall d) p' (ci i) (li i)
    (fun _ => pts i) tall SS Si L PCw (f_A (fd0 row i)) (f_wk (fd0 row i))
    (fun g => array_matrix (s_ncon d) (s_tcon d) (s_fe d) (s_em d) (s_nl d) (s_nline d) (s_tline d) (s_fel d) (s_eml d) (mixed_kernels log_erfc erfc ci li ng ty p' i (f_blc (fd g row' i)) (f_bll (fd g row' i))) p' (ci i) (li i)
       (f_lc (fd g row' i)) (f_ll (fd g row' i)) (f_PS (fd g row' i)) (f_mem (fd g row' i)) (f_A (fd g row' i)))
    NQ NL NC NG) with (type_tf := type_tf) (US1 := fun g => r_US (rd g row' i))
      (AS1 := fun g => set_covar_Amat_line_single (s_nl d) p' (ci i) (fun t1 t2 l => Slc_mmap log_erfc ci li ng ty t1 t2 p' i l) (fun t s j => s_ll (single_pointers_mmap log_erfc erfc type_tf false ci li ng ty p' i) t s j g)
          (fun t s j l => s_ll2 (single_pointers_mmap log_erfc erfc type_tf false ci li ng ty p' i) t s j l g) (fun t s j => s_self (single_pointers_mmap log_erfc erfc type_tf false ci li ng ty p' i) t s j g) (fun _ => pts i) tall (r_AS (rd g row' i)))
      (L1 := fun g => f_L (fd g row' i)) (Lr1 := fun g => r_L (rd g row' i)) (UT1 := fun g => r_PE (rd g row' i)).
  - pose proof (EndProofs.times_proper (s_ncon d) (s_tcon d) (s_fe d) (s_em d) (s_nl d) (s_nline d) (s_fel d) (s_eml d) p' (ci i) (li i) EP ORD) as PT. rewrite Nat.add_0_r in PT. exact PT.
  - exact ET.
  - rewrite EndProofs.n_tot. exact SY.
  - rewrite EndProofs.n_tot. exact PD.
  - rewrite EndProofs.n_tot. exact IV.
  - intros a b A B. pose proof (EndProofs.con_block (s_ncon d) (s_tcon d) (s_fe d) (s_em d) (s_nl d) (s_nline d) (s_tline d) (s_fel d) (s_eml d) p' (ci i) (li i) (psi i) SS a b D' A B) as CB.
    rewrite Nat.add_0_r in CB. exact CB.
  - rewrite EndProofs.n_tot. exact STW.
  - intros g G. rewrite EndProofs.n_tot. refine (filled_zero _ _ _ _ _ _ _ _ _ _ _ _ (psi i) nq NQ _ SS _ D'). apply EndProofs.array_filled. apply EKS.
  - rewrite EndProofs.n_tot. exact AP.
  - exact TD.
Qed.
End One.

Variable ps : list (list R).
Variables SS Si L : nat -> list R -> nat -> nat -> R.
Notation sample := (sample_ok nset ds ng uniform uniform_var nd_rec ps).
Notation row_described psi i row := (ok (par row) i /\ separate ds (fd0 row) i /\ described (par row) (psi row) i (SS i row) (Si i row) (L i row)).
Notation comps_g row := (component nset ds ng uniform uniform_var (par row) (decode flag)).
Notation psi_g := (fun row i j => response (PropCov.shape_of type_tf) ng (comps_g row i j)).
Notation orders order order' T i := (Permutation (order i) (seq 0 T) /\ forall g, (g < ng)%nat -> Permutation (order' g i) (seq 0 T)).
(** the two programs may run with the partial sums reduced in different orders and start
    from different contents of their work space *)
Theorem C89_add_up jk jk' T order order' : sample -> (1 <= T)%nat ->
  (forall i, (i < nset)%nat -> set_in_order ds 0 0 i /\ orders order order' T i /\ forall row, In row ps ->
     row_described psi_g i row /\ set_good ds ng uniform_var (par row) log_erfc type_tf (comps_g row) i
     /\ forall j g, (j < s_nl (ds i))%nat -> (g < ng)%nat -> (2 <= type_tf)%nat -> rates_apart (set_taud uniform_var (par row) i) (comps_g row i j g)) ->
  exists pall files,
    output_reconstruction_parallel dsytrf dsytri dtrtri dlauum log_erfc type_tf flag nset ds scale ng uniform uniform_var nq nd_rec 0 0 junk fd0 rd0 false jk (length ps) T order (concat ps) = Ok pall
    /\ output_decompose_line_parallel dgesol log_erfc type_tf flag nset ds scale ng uniform uniform_var nq nd_rec junk fd rd false jk' T order' ps = Ok files
    /\ files_add_up nset ds ng nq nd_rec flag pall files.
Proof.
  intros (HS & HN & HD) HT H. apply files_sum; auto.
  - intros i I. destruct (H i I) as (H1 & H2 & _). auto.
  - intros i row tall I RI. destruct (H i I) as (_ & _ & HR). destruct (HR row RI) as ((OK & AP & D) & GD & RS).
    unfold row_params at 1 2. apply (plain_sum (par row) i I (comps_g row) (par row) (same_self nset ds ng uniform uniform_var (par row) i) OK (SS i row) (Si i row) (L i row)); auto.
Qed.
Notation comps_r row := (ratio_component nset ds ng uniform uniform_var (par row)).
Notation psi_r := (fun row i j => response (PropCov.shape_of type_tf) ng (comps_r row i j)).
Theorem C89_ratio_add_up jk jk' T order order' : sample -> (1 <= T)%nat -> flag = false ->
  (forall i, (i < nset)%nat -> set_in_order ds 0 0 i /\ orders order order' T i /\ forall row, In row ps ->
     row_described psi_r i row /\ set_good ds ng uniform_var (par row) log_erfc type_tf (comps_r row) i
     /\ forall j g, (j < s_nl (ds i))%nat -> (g < ng)%nat -> (2 <= type_tf)%nat -> rates_apart (set_taud uniform_var (par row) i) (comps_r row i j g)) ->
  exists pall files,
    output_reconstruction_parallel dsytrf dsytri dtrtri dlauum log_erfc type_tf flag nset ds scale ng uniform uniform_var nq nd_rec 0 0 junk fd0 rd0 true jk (length ps) T order (concat ps) = Ok pall
    /\ output_decompose_line_parallel dgesol log_erfc type_tf flag nset ds scale ng uniform uniform_var nq nd_rec junk fd rd true jk' T order' ps = Ok files
    /\ files_add_up nset ds ng nq nd_rec flag pall files.
Proof.
  intros (HS & HN & HD) HT FL H. apply files_sum; auto.
  - intros i I. destruct (H i I) as (H1 & H2 & _). auto.
  - intros i row tall I RI. destruct (H i I) as (_ & _ & HR). destruct (HR row RI) as ((OK & AP & D) & GD & RS).
    destruct (ratio_row nset ds ng uniform uniform_var row NG i I) as [SE EQ].
    apply (plain_sum (par row) i I (comps_r row) _ SE OK (SS i row) (Si i row) (L i row)); auto. rewrite FL. exact EQ.
Qed.
Notation comps_m row := (component nset ds ng uniform uniform_var (par row) exp).
Notation psi_m := (fun row i j => mixed_response ng ty (comps_m row i j)).
Theorem C89_mixed_add_up jk jk' T order order' : sample -> (1 <= T)%nat -> log_erfc_correct log_erfc -> erfc_correct erfc -> digits ng ty ->
  (forall i, (i < nset)%nat -> set_in_order ds 0 0 i /\ orders order order' T i /\ forall row, In row ps ->
     row_described psi_m i row /\ forall j, (j < s_nl (ds i))%nat -> clear_scales' (set_taud uniform_var (par row) i) ng ty (comps_m row i j)) ->
  exists pall files,
    output_reconstruction_parallel_mmap dsytrf dsytri dtrtri dlauum log_erfc erfc ty nset ds scale ng uniform uniform_var nq nd_rec 0 0 junk fd0 rd0 jk (length ps) T order (concat ps) = Ok pall
    /\ output_decompose_line_parallel_mmap dgesol log_erfc erfc type_tf ty nset ds scale ng uniform uniform_var nq nd_rec junk fd rd jk' T order' ps = Ok files
    /\ files_add_up nset ds ng nq nd_rec false pall files.
Proof.
  intros (HS & HN & HD) HT HL HE DI H. apply files_sum; auto.
  - intros i I. destruct (H i I) as (H1 & H2 & _). auto.
  - intros i row tall I RI. destruct (H i I) as (_ & _ & HR). destruct (HR row RI) as ((OK & AP & D) & CS).
    unfold row_params at 1 2. apply (mixed_sum (par row) i I (comps_m row) (par row) (same_self nset ds ng uniform uniform_var (par row) i) OK (SS i row) (Si i row) (L i row)); auto.
Qed.
End AddUp.
Print Assumptions C89_add_up.
Print Assumptions C89_ratio_add_up.
Print Assumptions C89_mixed_add_up.

(** ** The times of the files *)
(** With a range of reconstruction changed by trec_low_ext, trec_upp_ext the files of the
    components do not have the times of pall.txt (src/line_decomp.c:167-195 against
    src/mc_line.c:346-379): they cannot be added line by line. *)
Lemma numbers_first l r : numbers l = Some r -> nth_error l 0 = option_map Some (nth_error r 0).
Proof. destruct l as [|[x|] l]; cbn [numbers]; [intros [= <-]; reflexivity| |discriminate]. destruct (numbers l); [|discriminate]. intros [= <-]. reflexivity. Qed.
Lemma set_first ds nd_rec low upp i first step : (2 <= points ds nd_rec i)%nat ->
  set_times ds nd_rec low upp i = Ok (Some (concat (repeat (map (fun k => first + INR k * step) (seq 0 (points ds nd_rec i))) (1 + s_nl (ds i))))) ->
  exists b e, RecModel.rec_span (map (fun j => map (s_tline (ds i) j) (seq 0 (s_nline (ds i) j))) (seq 0 (s_nl (ds i)))) (s_tcon (ds i) 0%nat) (s_tcon (ds i) (s_ncon (ds i) - 1)%nat) = Ok (b, e)
    /\ first = b + low - 5 / 100 * (e + upp - (b + low)).
Proof.
  intros P. assert (NC : (1 <= s_ncon (ds i))%nat) by (unfold points, RecModel.rec_count in P; lia).
  unfold set_times, RecModel.rec_times. cbv zeta.
  set (con := map (s_tcon (ds i)) (seq 0 (s_ncon (ds i)))). set (lines := map _ (seq 0 (s_nl (ds i)))).
  assert (LC : length con = s_ncon (ds i)) by (unfold con; rewrite map_length, seq_length; reflexivity).
  assert (NE : forall k, (k < s_ncon (ds i))%nat -> get con k = Ok (s_tcon (ds i) k)).
  { intros k K. unfold get, con. rewrite nth_error_map. rewrite (nth_error_nth' _ 0%nat) by (rewrite seq_length; lia). rewrite seq_nth by lia. reflexivity. }
  rewrite NE by lia. cbn [bind]. replace (RecModel.last_ con) with (get con (length con - 1)) by (destruct con; [cbn in LC; lia|reflexivity]).
  rewrite LC, NE by lia. cbn [bind]. destruct (RecModel.rec_span lines _ _) as [[b e]| | |]; try discriminate. cbn [bind fst snd]. intros [= E]. exists b, e. split; [reflexivity|].
  apply numbers_first in E. revert E. unfold points. unfold points in P. set (n := RecModel.rec_count (s_ncon (ds i)) nd_rec) in *.
  destruct n as [|[|n']]; [lia|lia|]. intros E. cbn [seq map repeat concat app nth_error Nat.eqb Nat.add] in E. cbn in E. injection E as E. rewrite !Rmult_0_l, !Rmult_0_r, Rplus_0_r, Rplus_0_l in E. lra.
Qed.
Theorem C89_times_refuted {IP} (dsytrf : nat -> (nat -> nat -> R) -> (nat -> nat -> R) * IP) dsytri dtrtri dlauum dgesol log_erfc type_tf flag junk fd0 rd0 fd rd jk jk' : exists ds scale ps low upp pall files curves trend curve t x outs out curve' t' x',
  set_in_order ds low upp 0 /\ sample_ok 1 ds 2 0 false 200 ps
  /\ output_reconstruction_parallel dsytrf dsytri dtrtri dlauum log_erfc type_tf flag 1 ds scale 2 0 false 2 200 low upp junk fd0 rd0 false jk (length ps) 1 (fun _ => [0%nat]) (concat ps) = Ok pall
  /\ output_decompose_line_parallel dgesol log_erfc type_tf flag 1 ds scale 2 0 false 2 200 junk fd rd false jk' 1 (fun _ _ => [0%nat]) ps = Ok files
  /\ nth_error pall 0 = Some (Some (curves, trend)) /\ nth_error curves 0 = Some curve /\ nth_error curve 0 = Some (t, x)
  /\ nth_error files 0 = Some outs /\ nth_error outs 0 = Some (Some out) /\ nth_error out 0 = Some curve' /\ nth_error curve' 0 = Some (t', x')
  /\ t < t' - 10.
Proof.
  set (ds := out_sets (fun _ _ => 0)). set (scale := fun _ _ : nat => 1). set (ps := [repeat 0 17]).
  assert (SO : sample_ok 1 ds 2 0 false 200 ps) by (split; [constructor; [reflexivity|constructor]|split; [cbn; lia|lia]]).
  assert (IO : forall low upp, low <= 0 -> 0 <= upp -> set_in_order ds low upp 0).
  { intros low upp LO UP. split.
    - intros [|j] C; unfold set_curves; cbn [narr_of times_of ds out_sets s_ncon s_tcon s_nline s_tline]; (split; [lia|]); intros a b AB; apply le_INR; lia.
    - exists 0%nat, 0%nat, 0%nat, 3%nat. unfold set_curves. cbn [narr_of times_of ds out_sets s_ncon s_tcon INR]. repeat (split; [lia|]). lra. }
  pose proof SO as (HS & HN & HD). pose proof (HS' := read_all 1 ds 2 0 false false ps).
  assert (LP : length (map (read_row 1 ds 2 0 false false) ps) = length ps) by apply map_length.
  assert (HN' : (1 <= length (map (read_row 1 ds 2 0 false false) ps))%nat) by (rewrite LP; exact HN).
  assert (PO : Permutation [0%nat] (seq 0 1)) by apply Permutation_refl.
  destruct (times_ok ds 200 (-10) 10 ps HN HD 0 (IO (-10) 10 ltac:(lra) ltac:(lra))) as (first & step & _ & ET & _).
  destruct (times_ok ds 200 0 0 ps HN HD 0 (IO 0 0 ltac:(lra) ltac:(lra))) as (first' & step' & _ & ET' & _).
  assert (P2 : (2 <= points ds 200 0)%nat) by (unfold points, RecModel.rec_count; cbn; lia).
  destruct (set_first ds 200 (-10) 10 0 first step P2 ET) as (b & e & B & F). destruct (set_first ds 200 0 0 0 first' step' P2 ET') as (b' & e' & B' & F').
  rewrite B in B'. injection B' as <- <-.
  destruct (set_rows 1 ds scale 2 0 false 2 200 (-10) 10 (rec_one dsytrf dsytri dtrtri dlauum log_erfc type_tf flag 1 ds 2 0 false 2 200 junk fd0 rd0) false ps HS HN jk 1 [0%nat] 0 first step _ (le_n 1) PO ET eq_refl) as ([curves trend] & E & _ & R1 & _).
  destruct (R1 0%nat 0%nat ltac:(cbn; lia) ltac:(lia)) as (curve & er & R2 & R3).
  assert (X : forall g, exists out' , output_set 1 ds scale 2 0 false 0 200 0 0 (dec_one dgesol log_erfc type_tf flag 1 ds 2 0 false 2 200 junk fd rd g) false jk' (length ps) 1 [0%nat] (concat (map (read_row 1 ds 2 0 false false) ps)) 0 = Ok (Some out')
    /\ exists curve' x', nth_error (fst out') 0 = Some curve' /\ nth_error curve' 0 = Some (first' + INR 0 * step', x')).
  { intros g. destruct (set_rows 1 ds scale 2 0 false 0 200 0 0 (dec_one dgesol log_erfc type_tf flag 1 ds 2 0 false 2 200 junk fd rd g) false _ HS' HN' jk' 1 [0%nat] 0 first' step' _ (le_n 1) PO ET' eq_refl) as (out' & E' & _ & R1' & _).
    rewrite LP in E'. exists out'. split; [exact E'|]. destruct (R1' 0%nat 0%nat ltac:(cbn; lia) ltac:(lia)) as (curve' & er' & Y1 & Y2). eauto. }
  destruct (X 0%nat) as (o0 & E0 & curve' & x' & Y1 & Y2). destruct (X 1%nat) as (o1 & E1 & _).
  exists ds, scale, ps, (-10), 10, [Some (curves, trend)], [[Some (fst o0)]; [Some (fst o1)]], curves, trend, curve. eexists. eexists. exists [Some (fst o0)], (fst o0), curve'. eexists. exists x'.
  split; [apply IO; lra|]. split; [exact SO|]. split; [|split].
  - unfold output_reconstruction_parallel, output_all. cbn [seq map]. rewrite E. reflexivity.
  - unfold output_decompose_line_parallel, all_components, component_file, output_all. cbn [seq map]. rewrite E0, E1. reflexivity.
  - split; [reflexivity|]. split; [exact R2|]. split; [exact R3|]. split; [reflexivity|]. split; [reflexivity|]. split; [exact Y1|]. split; [exact Y2|].
    cbn [INR]. rewrite F, F'. lra.
Qed.
Print Assumptions C89_times_refuted.

(** ** Cases meeting the hypotheses *)
(** The sets of C82_case (PropOut.v) with the range of the data: two sets with four
    continuum points, the lines with three points each; set 0 has two lines, set 1 three;
    linear trends, two components per line, a sample of two rows. *)
Lemma out_order0 fall i : (i < 2)%nat -> set_in_order (out_sets fall) 0 0 i.
Proof.
  intros I. split.
  - intros [|j] C; unfold set_curves; cbn [narr_of times_of out_sets s_ncon s_tcon s_nline s_tline]; (split; [lia|]); intros a b AB; apply le_INR; lia.
  - exists 0%nat, 0%nat, 0%nat, 3%nat. unfold set_curves. cbn [narr_of times_of out_sets s_ncon s_tcon INR]. repeat (split; [lia|]). lra.
Qed.
Lemma out_sample fall r1 r2 : length r1 = 41%nat -> length r2 = 41%nat -> sample_ok 2 (out_sets fall) 2 0 false 200 [r1; r2].
Proof. intros L1 L2. split; [|split; [cbn; lia|lia]]. constructor; [rewrite L1; reflexivity|]. constructor; [rewrite L2; reflexivity|constructor]. Qed.
Lemma out_separate fall mem i : (i < 2)%nat -> separate (out_sets fall) (case_found mem) i.
Proof. intros I. left. assert (i = 0 \/ i = 1)%nat as [-> | ->] by lia; cbn; lia. Qed.
Notation case_order := (fun i => if Nat.eqb i 0 then [0; 1]%nat else [1; 0]%nat).
Lemma case_orders i : Permutation (if Nat.eqb i 0 then [0; 1]%nat else [1; 0]%nat) (seq 0 2).
Proof. cbn beta. destruct (Nat.eqb i 0); cbn [seq]; [apply Permutation_refl|apply perm_swap]. Qed.
Lemma choose2 (P : nat -> list R -> (nat -> nat -> R) -> (nat -> nat -> R) -> (nat -> nat -> R) -> Prop) : (forall i row, (i < 2)%nat -> exists a b c, P i row a b c) ->
  exists SS Si L, forall i row, (i < 2)%nat -> P i row (SS i row) (Si i row) (L i row).
Proof.
  intros H0.
  assert (H : forall x : nat * list R, exists y : (nat -> nat -> R) * (nat -> nat -> R) * (nat -> nat -> R), (fst x < 2)%nat -> P (fst x) (snd x) (fst (fst y)) (snd (fst y)) (snd y)).
  { intros [i row]. cbn [fst snd]. destruct (Nat.lt_ge_cases i 2) as [I|I]; [|exists (fun _ _ => 0, fun _ _ => 0, fun _ _ => 0); intros; lia].
    destruct (H0 i row I) as (a & b & c & D). exists (a, b, c). intros _. exact D. }
  apply ClassicalChoice.choice in H. destruct H as [g D].
  exists (fun i row => fst (fst (g (i, row)))), (fun i row => snd (fst (g (i, row)))), (fun i row => snd (g (i, row))). intros i row I. exact (D (i, row) I).
Qed.
(** top-hats, any two rows *)
Example C89_case fall scale mem r1 r2 : length r1 = 41%nat -> length r2 = 41%nat -> exists SS L pall files,
  let comps := fun row => component 2 (out_sets fall) 2 0 false (row_values row) exp in
  let psi := fun row i j => response tophat 2 (comps row i j) in
  output_reconstruction_parallel ref_dsytrf ref_dsytri ref_dtrtri ref_dlauum (fun _ => 0) 1 false 2 (out_sets fall) scale 2 0 false 2 200 0 0 (fun _ _ => 0%nat)
    (fun _ => case_found mem) (fun _ _ => RecFound mem mem mem mem mem) false 7 2 2 case_order (r1 ++ r2) = Ok pall
  /\ output_decompose_line_parallel ref_dgesol (fun _ => 0) 1 false 2 (out_sets fall) scale 2 0 false 2 200 (fun _ _ => 0%nat)
    (fun _ _ => case_found mem) (fun _ _ _ => RecFound mem mem mem mem mem) false 8 2 (fun _ => case_order) [r1; r2] = Ok files
  /\ files_written 2 (out_sets fall) scale 2 200 [r1; r2]
       (fun g i row => component_prediction (out_sets fall) 2 false 2 false (fun _ => tophat) (comps row) (psi row) (row_values row) (SS i row) (L i row) (fun _ => True) g i) files
  /\ files_add_up 2 (out_sets fall) 2 2 200 false pall files.
Proof.
  intros L1 L2.
  destruct (choose2 (fun i row a b c => set_described 2 (out_sets fall) 2 0 false 2 (row_values row) (fun i j => response tophat 2 (component 2 (out_sets fall) 2 0 false (row_values row) exp i j)) i a b c)) as (SS & Si & L & D).
  { intros i row I. exact (C74_described (fun _ => 0) 1 false 2 (out_sets fall) 2 0 false 2 (fun _ _ => 0%nat) (row_values row) i I (out_ok fall 0 false _ i I) Logic.I). }
  destruct (C89_general ref_dgesol (fun _ => 0) 1 false 2 (out_sets fall) scale 2 0 false 2 200 (fun _ _ => 0%nat) (fun _ _ => case_found mem) (fun _ _ _ => RecFound mem mem mem mem mem) dgesol_exists [r1; r2] SS Si L
    8 2 (fun _ => case_order) (out_sample fall r1 r2 L1 L2) ltac:(lia)) as (files & E & W).
  { intros i I. split; [apply out_order0, I|]. split; [intros; apply case_orders|]. intros row _. split; [split; [apply out_ok, I|exact (D i row I)]|]. split; exact Logic.I || (intros; exact Logic.I). }
  destruct (C89_add_up ref_dsytrf ref_dsytri ref_dtrtri ref_dlauum ref_dgesol (fun _ => 0) 1 false 2 (out_sets fall) scale 2 0 false 2 200 (fun _ _ => 0%nat)
    (fun _ => case_found mem) (fun _ _ => RecFound mem mem mem mem mem) (fun _ _ => case_found mem) (fun _ _ _ => RecFound mem mem mem mem mem)
    C29_contract_met dtrtri_exists dlauum_exists dgesol_exists ltac:(lia) [r1; r2] SS Si L
    7 8 2 case_order (fun _ => case_order) (out_sample fall r1 r2 L1 L2) ltac:(lia)) as (pall & files' & E1 & E2 & A).
  { intros i I. split; [apply out_order0, I|]. split; [split; intros; apply case_orders|]. intros row _. split; [split; [apply out_ok, I|split; [apply out_separate, I|exact (D i row I)]]|]. split; [exact Logic.I|]. intros; lia. }
  rewrite E in E2. injection E2 as <-. exists SS, L, pall, files. cbv zeta.
  split; [|split; [exact E|split; [exact W|exact A]]]. cbn [concat length] in E1. rewrite app_nil_r in E1. exact E1.
Qed.
(** ratios of areas, any two rows *)
Example C89_ratio_case fall scale mem r1 r2 : length r1 = 41%nat -> length r2 = 41%nat -> exists SS L pall files,
  let comps := fun row => ratio_component 2 (out_sets fall) 2 0 false (row_values row) in
  let psi := fun row i j => response tophat 2 (comps row i j) in
  output_reconstruction_parallel ref_dsytrf ref_dsytri ref_dtrtri ref_dlauum (fun _ => 0) 1 false 2 (out_sets fall) scale 2 0 false 2 200 0 0 (fun _ _ => 0%nat)
    (fun _ => case_found mem) (fun _ _ => RecFound mem mem mem mem mem) true 7 2 2 case_order (r1 ++ r2) = Ok pall
  /\ output_decompose_line_parallel ref_dgesol (fun _ => 0) 1 false 2 (out_sets fall) scale 2 0 false 2 200 (fun _ _ => 0%nat)
    (fun _ _ => case_found mem) (fun _ _ _ => RecFound mem mem mem mem mem) true 8 2 (fun _ => case_order) [r1; r2] = Ok files
  /\ files_written 2 (out_sets fall) scale 2 200 [r1; r2]
       (fun g i row => component_prediction (out_sets fall) 2 false 2 false (fun _ => tophat) (comps row) (psi row) (row_values row) (SS i row) (L i row) (fun _ => True) g i) files
  /\ files_add_up 2 (out_sets fall) 2 2 200 false pall files.
Proof.
  intros L1 L2.
  destruct (choose2 (fun i row a b c => set_described 2 (out_sets fall) 2 0 false 2 (row_values row) (fun i j => response tophat 2 (ratio_component 2 (out_sets fall) 2 0 false (row_values row) i j)) i a b c)) as (SS & Si & L & D).
  { intros i row I. refine (C75_described (fun _ => 0) 1 2 (out_sets fall) 2 0 false 2 (fun _ _ => 0%nat) (row_values row) i I (out_ok fall 0 false _ i I) Logic.I _). lia. }
  destruct (C89_ratio ref_dgesol (fun _ => 0) 1 false 2 (out_sets fall) scale 2 0 false 2 200 (fun _ _ => 0%nat) (fun _ _ => case_found mem) (fun _ _ _ => RecFound mem mem mem mem mem) dgesol_exists [r1; r2] SS Si L
    8 2 (fun _ => case_order) (out_sample fall r1 r2 L1 L2) ltac:(lia) ltac:(lia) eq_refl) as (files & E & W).
  { intros i I. split; [apply out_order0, I|]. split; [intros; apply case_orders|]. intros row _. split; [split; [apply out_ok, I|exact (D i row I)]|]. split; exact Logic.I || (intros; exact Logic.I). }
  destruct (C89_ratio_add_up ref_dsytrf ref_dsytri ref_dtrtri ref_dlauum ref_dgesol (fun _ => 0) 1 false 2 (out_sets fall) scale 2 0 false 2 200 (fun _ _ => 0%nat)
    (fun _ => case_found mem) (fun _ _ => RecFound mem mem mem mem mem) (fun _ _ => case_found mem) (fun _ _ _ => RecFound mem mem mem mem mem)
    C29_contract_met dtrtri_exists dlauum_exists dgesol_exists ltac:(lia) [r1; r2] SS Si L
    7 8 2 case_order (fun _ => case_order) (out_sample fall r1 r2 L1 L2) ltac:(lia) eq_refl) as (pall & files' & E1 & E2 & A).
  { intros i I. split; [apply out_order0, I|]. split; [split; intros; apply case_orders|]. intros row _. split; [split; [apply out_ok, I|split; [apply out_separate, I|exact (D i row I)]]|]. split; [exact Logic.I|]. intros; lia. }
  rewrite E in E2. injection E2 as <-. exists SS, L, pall, files. cbv zeta.
  split; [|split; [exact E|split; [exact W|exact A]]]. cbn [concat length] in E1. rewrite app_nil_r in E1. exact E1.
Qed.
(** a top-hat and an exponential of width taud, two rows of zeros *)
Example C89_mixed_case log_erfc erfc fall scale mem : log_erfc_correct log_erfc -> erfc_correct erfc -> exists SS L pall files,
  let row0 := repeat 0 41 in
  let comps := fun row => component 2 (out_sets fall) 2 0 false (row_values row) exp in
  let psi := fun row i j => mixed_response 2 ty13 (comps row i j) in
  output_reconstruction_parallel_mmap ref_dsytrf ref_dsytri ref_dtrtri ref_dlauum log_erfc erfc ty13 2 (out_sets fall) scale 2 0 false 2 200 0 0 (fun _ _ => 0%nat)
    (fun _ => case_found mem) (fun _ _ => RecFound mem mem mem mem mem) 7 2 2 case_order (row0 ++ row0) = Ok pall
  /\ output_decompose_line_parallel_mmap ref_dgesol log_erfc erfc 1 ty13 2 (out_sets fall) scale 2 0 false 2 200 (fun _ _ => 0%nat)
    (fun _ _ => case_found mem) (fun _ _ _ => RecFound mem mem mem mem mem) 8 2 (fun _ => case_order) [row0; row0] = Ok files
  /\ files_written 2 (out_sets fall) scale 2 200 [row0; row0]
       (fun g i row => component_prediction (out_sets fall) 2 false 2 false (fun g => MixSpec.shape_of (ty13 g)) (comps row) (psi row) (row_values row) (SS i row) (L i row)
          (fun c => c = 0%nat \/ (ty13 g = 1%nat /\ forall j, c = S j -> (2 <= 1)%nat -> rates_apart (set_taud false (row_values row) i) (comps row i j g))) g i) files
  /\ files_add_up 2 (out_sets fall) 2 2 200 false pall files.
Proof.
  intros HL HE. cbv zeta. set (row0 := repeat 0 41). assert (L1 : length row0 = 41%nat) by reflexivity.
  assert (RZ : row_values row0 = fun _ => 0).
  { apply functional_extensionality. intros a. unfold row_values, row0. destruct (Nat.lt_ge_cases a 41) as [A|A]; [|apply nth_overflow; cbn; exact A].
    apply (repeat_spec 41 0). apply nth_In. cbn. exact A. }
  assert (C : forall i j, (j < s_nl (out_sets fall i))%nat -> clear_scales' (set_taud false (row_values row0) i) 2 ty13 (component 2 (out_sets fall) 2 0 false (row_values row0) exp i j)) by (rewrite RZ; intros i j _ k _ _; left; reflexivity).
  destruct (choose2 (fun i row a b c => set_described 2 (out_sets fall) 2 0 false 2 (row_values row0) (fun i j => mixed_response 2 ty13 (component 2 (out_sets fall) 2 0 false (row_values row0) exp i j)) i a b c)) as (SS & Si & L & D).
  { intros i row I. exact (C74_mixed_described log_erfc erfc ty13 2 (out_sets fall) 2 0 false 2 (fun _ _ => 0%nat) (row_values row0) i I (out_ok fall 0 false _ i I) HL HE digits13 (C i)). }
  assert (RI : forall row, In row [row0; row0] -> row = row0) by (intros row [<-|[<-|[]]]; reflexivity). clearbody row0.
  destruct (C89_mixed ref_dgesol log_erfc erfc 1 ty13 2 (out_sets fall) scale 2 0 false 2 200 (fun _ _ => 0%nat) (fun _ _ => case_found mem) (fun _ _ _ => RecFound mem mem mem mem mem) dgesol_exists [row0; row0] SS Si L
    8 2 (fun _ => case_order) (out_sample fall row0 row0 L1 L1) ltac:(lia) HL HE digits13) as (files & E & W).
  { intros i I. split; [apply out_order0, I|]. split; [intros; apply case_orders|]. intros row IN. rewrite (RI row IN). split; [split; [apply out_ok, I|exact (D i row0 I)]|]. apply C. }
  destruct (C89_mixed_add_up ref_dsytrf ref_dsytri ref_dtrtri ref_dlauum ref_dgesol log_erfc erfc 1 ty13 2 (out_sets fall) scale 2 0 false 2 200 (fun _ _ => 0%nat)
    (fun _ => case_found mem) (fun _ _ => RecFound mem mem mem mem mem) (fun _ _ => case_found mem) (fun _ _ _ => RecFound mem mem mem mem mem)
    C29_contract_met dtrtri_exists dlauum_exists dgesol_exists ltac:(lia) [row0; row0] SS Si L
    7 8 2 case_order (fun _ => case_order) (out_sample fall row0 row0 L1 L1) ltac:(lia) HL HE digits13) as (pall & files' & E1 & E2 & A).
  { intros i I. split; [apply out_order0, I|]. split; [split; intros; apply case_orders|]. intros row IN. rewrite (RI row IN). split; [split; [apply out_ok, I|split; [apply out_separate, I|exact (D i row0 I)]]|]. apply C. }
  rewrite E in E2. injection E2 as <-. exists SS, L, pall, files.
  split; [|split; [exact E|split; [exact W|exact A]]]. cbn [concat length] in E1. rewrite app_nil_r in E1. exact E1.
Qed.
