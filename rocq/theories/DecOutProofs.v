(** Proofs for DecOutModel.v: one set and one row of the sample, and what all files have in
    common. *)
From Coq Require Import Reals List Arith Lia Lra Permutation FunctionalExtensionality.
From Coquelicot Require Import Coquelicot.
From Verif Require Import CPrelude SemisepModel SemisepProofs SemisepProofs2 MatBridge MatBridge2 SemisepProofs3 PartProofs PartProofs2 KernelCalc KernelSpec KernelModel KernelGauss2 PartModel
  CovModel LikeModel PredModel PropPart PropSemisep GlsAlgebra LikeProofs PropLike PredProofs PropPred.
From Verif Require Import PropCov MixSpec PropKernel MixModel PropMix PsdCore PsdKernel PropPsd EndModel SetsModel PropSets OutModel PropOut DecompModel DecOutModel.
From Verif Require EndProofs PropEnd ParamModel ParamSpec ParamProofs ParamProofs2 SmallModel PropSmall PropParam RecModel RecProofs PropRec PropNorm DecompMat CovProofs CovProofs2 PropDecompCov PropDecomp DecompProofs.
Import ListNotations.
Open Scope R_scope.

Lemma best_any n m SS L u V V' target y v : PropDecomp.best_value n m SS L u V target y v -> PropDecomp.best_value n m SS L u V' target y v.
Proof.
  intros (w & U & E & B1 & B2). exists w. split; [exact U|]. split; [exact E|]. unfold error_variance in *. split.
  - intros w' U'. specialize (B1 w' U'). lra.
  - intros w' U' H. apply B2; [exact U'|lra].
Qed.

Section One.
Variable ncon : nat.
Variables tcon fe_con : arr.
Variable error_mean_con : R.
Variable nl : nat.
Variable nline : nat -> nat.
Variables tline fe_line : nat -> arr.
Variable error_mean_line : nat -> R.
Variable pm : arr.
Variable idx_con : nat.
Variable idx_line : nat -> nat.
Variables part psi : nat -> R -> R.
Variable Slc Slc1 Sll1 Sself : R -> R -> nat -> R.
Variable Sll21 : R -> R -> nat -> nat -> R.
Notation taud := (exp (pm (idx_con + 2)%nat)).
Notation sig := (exp (pm (idx_con + 1)%nat) * sqrt taud).
Notation sizes := (ncon :: map nline (seq 0 nl)).
Notation n := (list_sum sizes).
Notation dtime := (time tcon tline).
Notation sq := (EndProofs.squared_error fe_con error_mean_con fe_line error_mean_line pm idx_con idx_line).
Hypothesis Hcl : forall t s j, (j < nl)%nat -> cov_cl (psi j) taud t s (Slc t s j).
Hypothesis Hcl1 : forall t s j, (j < nl)%nat -> cov_cl (part j) taud t s (Slc1 t s j).
Hypothesis Hll1 : forall t s j l, (j < nl)%nat -> (l < nl)%nat -> cov_ll (part j) (psi l) taud t s (Sll21 t s j l).
Hypothesis Heq : forall t s j, Sll1 t s j = Sll21 t s j j.
Hypothesis SH : forall j, (j < nl)%nat -> of_shapes (psi j).
Hypothesis SHp : forall j, (j < nl)%nat -> of_shapes (part j).
Hypothesis EP : forall c i, (c < length sizes)%nat -> (i < nth c sizes 0)%nat -> 0 < sq c i.
Variable dgesol : nat -> nat -> arr -> arr -> arr.
Variable flag : bool.
Variables ng nq g : nat.
Variable fall : arr.
Variables US AS L0 Lr0 UT0 : arr.
Hypothesis NQ : (1 <= nq)%nat.
Hypothesis ET : forall c, (c < 1 + nl)%nat -> enough_times nq (narr_of ncon nline c) (times_of tcon tline c).
Variable nall : nat -> nat.
Variable tall : arr.
Notation filled := (EndProofs.filled ncon tcon fe_con error_mean_con nl nline tline fe_line error_mean_line pm idx_con idx_line psi).
Notation curve := (PropEnd.curve_of part).
Notation area := (fun j g => exp (pm (idx_line j + 1 + 3 * g)%nat)).

Lemma filled_zero PC S : filled PC -> data_covariance psi taud sig sizes dtime sq S -> PropPart.stored PC 0 n (fun i j => S i j / (sig * sig)).
Proof.
  intros F D i j I J.
  pose proof (EndProofs.filled_stored ncon tcon fe_con error_mean_con nl nline tline fe_line error_mean_line pm idx_con idx_line psi PC S PC 0 F D i j I J) as E.
  rewrite EndProofs.n_points in E. rewrite <- E. cbn [Nat.add]. symmetry. apply (EndProofs.put_at PC 0 (n * n) PC (i * n + j)). nia.
Qed.

Lemma dec_generic PC S Si L : DecompProofs.dgesol_spec dgesol -> filled PC ->
  data_covariance psi taud sig sizes dtime sq S -> is_inverse n S Si -> trend_design nq (1 + nl) (narr_of ncon nline) (times_of tcon tline) L ->
  let out := decompose dgesol flag ng pm idx_line nq nl ncon tcon nline tline fall (pm (idx_con + 1)%nat) (pm (idx_con + 2)%nat) nall tall g PC
    (set_covar_Umat_line_single ncon tcon nl nline tline pm idx_con Slc Slc1 Sll1 Sll21 (all_points ncon nl nline) nall tall US)
    (set_covar_Amat_line_single nl pm idx_con Slc Sll1 Sll21 Sself nall tall AS) L0 Lr0 UT0 in
  forall c k, (c < 1 + nl)%nat -> (k < nall c)%nat ->
    let t := tall (total nall c + k)%nat in
    exists u, target_covariance (curve c) psi taud sig sizes dtime t u /\
      (forall V, PropDecomp.best_value n (nq * (1 + nl)) S L u V (fun v => PropDecomp.part_of_trend flag ng area g c * trend_at nq v c t) fall (rec_f out (total nall c + k)%nat)) /\
      ((forall j, c = Datatypes.S j -> forall t, cov_ll (part j) (part j) taud t t (Sself t t j)) ->
       exists V, target_variance (curve c) taud sig t V /\ PropDecomp.known_trend_error n S u V (rec_fe out (total nall c + k)%nat)).
Proof.
  intros DG F D IV TD.
  destruct (EndProofs.pd ncon tcon fe_con error_mean_con nl nline tline fe_line error_mean_line pm idx_con idx_line psi SH EP S D) as [SY PD].
  pose proof (proj1 (PropDecompCov.cross_single ncon tcon nl nline tline pm idx_con Slc Slc1 Sll1 Sll21 part psi Hcl Hcl1 Hll1 Heq nall tall US)) as HU.
  pose proof (proj2 (DecompMat.Amat_single_spec nl pm idx_con Slc Sll1 Sll21 Sself nall tall AS)) as HA.
  rewrite <- EndProofs.n_points in HU at 1.
  set (U' := set_covar_Umat_line_single _ _ _ _ _ _ _ _ _ _ _ _ _ _ _) in *. set (A' := set_covar_Amat_line_single _ _ _ _ _ _ _ _ _ _) in *.
  set (T := total nall (1 + nl)).
  assert (ET' : list_sum (map nall (seq 0 (Datatypes.S nl))) = T) by apply EndProofs.total_seq.
  pose (U := fun r k => sig * sig * U' (r * n + k)%nat). pose (V := fun r => sig * sig * A' (r * T + r)%nat).
  assert (SP : 0 < sig) by apply EndProofs.sig_pos.
  pose proof (PropDecomp.C66_component_curves dgesol flag ng pm idx_line nq nl ncon tcon nline tline fall (pm (idx_con + 1)%nat) (pm (idx_con + 2)%nat) nall tall g PC U' A' L0 Lr0 UT0
    S Si L U V) as H.
  cbv zeta in H. rewrite EndProofs.n_tot in H. fold T in H.
  destruct H as [_ H]; auto.
  - apply filled_zero; assumption.
  - intros r k R KK. unfold U. field. split; apply Rgt_not_eq; try (apply sqrt_lt_R0); apply exp_pos.
  - intros r R. unfold V. field. split; apply Rgt_not_eq; try (apply sqrt_lt_R0); apply exp_pos.
  - cbv zeta. intros c k C KK. set (r := (total nall c + k)%nat).
    assert (R : (r < T)%nat).
    { unfold r, T. pose proof (EndProofs.total_mono nall (Datatypes.S c) (1 + nl) ltac:(lia)) as X. cbn [total] in X. lia. }
    assert (LR : locate (map nall (seq 0 (Datatypes.S nl))) r = Some (c, k)) by (apply EndProofs.locate_total; [lia|exact KK]).
    assert (RT : rtime nall tall c k = tall r) by (unfold rtime, r; rewrite EndProofs.total_seq; reflexivity).
    assert (T1 : target_covariance (curve c) psi taud sig sizes dtime (tall r) (U r)).
    { intros b B. destruct (HU r b ltac:(rewrite ET'; exact R) B) as (c' & k' & d & m & L1 & L2 & PCV). rewrite LR in L1. injection L1 as <- <-.
      exists d, m, (U' (r * n + b)%nat). split; [exact L2|]. split; [reflexivity|]. rewrite RT in PCV. destruct c, d; exact PCV. }
    destruct (H c k C KK) as [H1 H2]. fold r in H1, H2.
    exists (U r). split; [exact T1|]. split; [intros V'; eapply best_any; exact H1|].
    intros HS. exists (V r).
    assert (T2 : target_variance (curve c) taud sig (tall r) (V r)).
    { assert (VP : CovProofs.valid nall nl (c, k)) by (split; cbn; [lia|exact KK]).
      pose proof (HA (c, k) (c, k) VP VP) as E. unfold CovProofs.adr2 in E.
      assert (EP1 : CovProofs.pos nall (c, k) = r) by (unfold CovProofs.pos, r; cbn [fst snd]; rewrite PropDecomp.total_start; reflexivity).
      assert (ET1 : CovProofs.total nall nl = T) by (unfold CovProofs.total, T; rewrite PropDecomp.total_start; reflexivity).
      rewrite EP1, ET1, DecompMat.self_eq in E. unfold V. rewrite E. destruct c as [|j]; cbn [fst PropEnd.curve_of target_variance].
      - rewrite Rminus_diag_eq, Rabs_R0 by reflexivity. unfold Rdiv. rewrite Ropp_0, Rmult_0_l, exp_0. ring.
      - eexists. split; [|reflexivity].
        replace (CovProofs2.Trec nall tall (Datatypes.S j, k)) with (tall r); [apply HS; reflexivity|].
        unfold CovProofs2.Trec. change (tall r = tall (CovProofs.pos nall (Datatypes.S j, k))). rewrite EP1. reflexivity. }
    split; [exact T2|]. apply H2.
    apply (C68_joint_covariance psi taud sig sizes dtime sq S (curve c) (tall r) (U r) (V r) (exp_pos _) SP); auto.
    + intros j. rewrite EndProofs.len_sizes. intros J. apply SH. lia.
    + intros f. destruct c as [|j]; [discriminate|]. intros X. injection X as <-. apply SHp. lia.
    + intros d i Hd Hi. left. apply EP; assumption.
Qed.
End One.

(** ** Rows of the sample as read *)
Section Read.
Variable nset : nat.
Variable ds : nat -> lcset.
Variable ng : nat.
Variable uniform : nat.
Variable uniform_var : bool.
Notation np := (ParamModel.num_params nset (nlset ds) ng uniform uniform_var).
Notation rd_ := (read_row nset ds ng uniform uniform_var).
Lemma read_length ratio row : length (rd_ ratio row) = np.
Proof. unfold read_row. rewrite map_length, seq_length. reflexivity. Qed.
Lemma read_values ratio row : (1 <= ng)%nat \/ ratio = false -> length row = np -> row_values (rd_ ratio row) = row_params nset ds ng uniform uniform_var ratio row.
Proof.
  intros NG LE. apply functional_extensionality. intros a. unfold row_values at 1. destruct (Nat.lt_ge_cases a np) as [A|A].
  - unfold read_row. apply nth_map_seq, A.
  - rewrite nth_overflow by (rewrite read_length; exact A). unfold row_params. destruct ratio.
    + destruct NG as [NG|NG]; [|discriminate].
      destruct (PropSmall.C53_inplace Rplus ng (ParamModel.num_params_var nset uniform_var) (ParamSpec.nlines nset (nlset ds) uniform) 0 (row_values row) NG) as (M' & E & _ & O).
      replace (ParamModel.num_params_line nset (nlset ds) ng uniform) with (ParamSpec.nlines nset (nlset ds) uniform * (1 + 3 * ng))%nat by (rewrite ParamProofs.npl_lines; unfold ParamModel.per_line; lia).
      rewrite E, O; [unfold row_values; symmetry; apply nth_overflow; lia|].
      right. unfold ParamModel.num_params in A. rewrite ParamProofs.npl_lines in A. unfold ParamModel.per_line in A. lia.
    + unfold row_values. symmetry. apply nth_overflow. lia.
Qed.
End Read.

(** ** The files of one sample *)
Section Files.
Variable nset : nat.
Variable ds : nat -> lcset.
Variable scale : nat -> nat -> R.
Variable ng : nat.
Variable uniform : nat.
Variable uniform_var : bool.
Variable nd_rec : nat.
Variable ratio : bool.
Variable ps : list (list R).
Notation np := (ParamModel.num_params nset (nlset ds) ng uniform uniform_var).
Notation tr := (read_row nset ds ng uniform uniform_var ratio).
Notation params := (row_params nset ds ng uniform uniform_var).
Notation pts := (points ds nd_rec).
Hypothesis HS : List.Forall (fun r => length r = np) ps.
Hypothesis HN : (1 <= length ps)%nat.
Hypothesis HD : (2 <= nd_rec)%nat.
Hypothesis HG : (1 <= ng)%nat \/ ratio = false.
Lemma read_all : List.Forall (fun r => length r = np) (map tr ps).
Proof. apply List.Forall_forall. intros r RI. apply in_map_iff in RI. destruct RI as (x & <- & _). apply read_length. Qed.
Lemma forall2_map_l {A B C} (T : B -> C -> Prop) (f : A -> B) l l' : Forall2 T (map f l) l' -> Forall2 (fun x y => T (f x) y) l l'.
Proof. revert l'. induction l as [|x l IH]; intros l' H; inversion H; subst; constructor; auto. Qed.
Lemma forall2_in {A C} (T T' : A -> C -> Prop) l l' : (forall x y, In x l -> T x y -> T' x y) -> Forall2 T l l' -> Forall2 T' l l'.
Proof. intros H F. induction F as [|x y l l' X F IH]; constructor; [apply H; [left; reflexivity|exact X]|]. apply IH. intros. apply H; [right|]; assumption. Qed.
Lemma written_map (P P' : nat -> list R -> nat -> R -> R -> R -> Prop) nq low upp i out : (forall row c t v e, In row ps -> P' i (tr row) c t v e -> P i row c t v e) ->
  written ds scale nq nd_rec low upp (map tr ps) P' (fun _ _ _ => True) i out -> written ds scale nq nd_rec low upp ps P (fun _ _ _ => True) i out.
Proof.
  intros H (first & step & S1 & S2 & S3 & S4 & S5 & ys & S6 & S7). exists first, step. repeat (split; [assumption|]). split.
  - intros c C. destruct (S4 c C) as (curve & E & L & R). exists curve. split; [exact E|]. split; [exact L|]. intros k K. destruct (R k K) as (ves & F & E').
    exists ves. cbv zeta in *. split; [|exact E']. apply forall2_map_l in F. eapply forall2_in; [|exact F]. intros row ve RI. apply H, RI.
  - split; [exact S5|]. exists ys. split; [|exact S7]. apply forall2_map_l in S6. eapply forall2_in; [|exact S6]. auto.
Qed.
Lemma component_written one (P : nat -> list R -> nat -> R -> R -> R -> Prop) jk T order g : (1 <= T)%nat -> (forall i, (i < nset)%nat -> set_in_order ds 0 0 i /\ Permutation (order i) (seq 0 T)) ->
  (forall i row tall, (i < nset)%nat -> In row ps -> let o := one g (tr row) tall (params ratio row) i in
     forall c k, (c < 1 + s_nl (ds i))%nat -> (k < pts i)%nat -> P i row c (tall (c * pts i + k)%nat) (rec_f o (c * pts i + k)%nat) (rec_fe o (c * pts i + k)%nat)) ->
  exists outs, component_file nset ds scale ng uniform uniform_var nd_rec one ratio jk T order ps g = Ok outs /\ length outs = nset /\
    forall i, (i < nset)%nat -> exists out, nth_error outs i = Some (Some out) /\ written ds scale 0 nd_rec 0 0 ps P (fun _ _ _ => True) i (out, []).
Proof.
  intros HT HO HP.
  destruct (all_out nset ds scale ng uniform uniform_var 0 nd_rec 0 0 (one g) false (map tr ps)
    (fun i row' c t v e => forall row, In row ps -> tr row = row' -> P i row c t v e) (fun _ _ _ => True) read_all ltac:(rewrite map_length; exact HN) HD) with (jk := jk) (T := T) (order := order)
    as (outs & E & LO & W); auto.
  - intros i row' tall I RI. cbv zeta. split; [exact Logic.I|]. intros c k C K row RI' ER. subst row'. change (row_params nset ds ng uniform uniform_var false (tr row)) with (row_values (tr row)).
    rewrite read_values; [|exact HG|exact (proj1 (List.Forall_forall _ _) HS row RI')]. apply HP; assumption.
  - unfold component_file. rewrite map_length in E. rewrite E. cbn [bind]. eexists. split; [reflexivity|]. split; [rewrite map_length; exact LO|].
    intros i I. destruct (W i I) as ([cs tr'] & E1 & W1). exists cs. split; [rewrite nth_error_map, E1; reflexivity|].
    assert (tr' = []) as ->.
    { destruct W1 as (_ & _ & _ & _ & _ & _ & LT & _). cbn [snd] in LT. rewrite Nat.mul_0_r in LT. destruct tr'; [reflexivity|discriminate]. }
    eapply written_map; [|exact W1]. intros row c t v e RI X. apply X; [exact RI|reflexivity].
Qed.
Lemma components_written one (P : nat -> nat -> list R -> nat -> R -> R -> R -> Prop) jk T order : (1 <= T)%nat ->
  (forall i, (i < nset)%nat -> set_in_order ds 0 0 i /\ forall g, (g < ng)%nat -> Permutation (order g i) (seq 0 T)) ->
  (forall g i row tall, (g < ng)%nat -> (i < nset)%nat -> In row ps -> let o := one g (tr row) tall (params ratio row) i in
     forall c k, (c < 1 + s_nl (ds i))%nat -> (k < pts i)%nat -> P g i row c (tall (c * pts i + k)%nat) (rec_f o (c * pts i + k)%nat) (rec_fe o (c * pts i + k)%nat)) ->
  exists files, all_components nset ds scale ng uniform uniform_var nd_rec one ratio jk T order ps = Ok files /\ length files = ng /\
    forall g, (g < ng)%nat -> exists outs, nth_error files g = Some outs /\ length outs = nset /\
    forall i, (i < nset)%nat -> exists out, nth_error outs i = Some (Some out) /\ written ds scale 0 nd_rec 0 0 ps (P g) (fun _ _ _ => True) i (out, []).
Proof.
  intros HT HO HP. unfold all_components.
  destruct (sequence_all nd_rec ps HN HD (fun g => component_file nset ds scale ng uniform uniform_var nd_rec one ratio jk T (order g) ps g)
    (fun g outs => length outs = nset /\ forall i, (i < nset)%nat -> exists out, nth_error outs i = Some (Some out) /\ written ds scale 0 nd_rec 0 0 ps (P g) (fun _ _ _ => True) i (out, [])) ng)
    as (xs & E & LX & X).
  - intros g G. apply component_written; [exact HT| |intros i row tall; apply HP, G]. intros i I. split; [apply (HO i I)|]. apply (HO i I), G.
  - exists xs. split; [exact E|]. split; [exact LX|]. intros g G. destruct (X g G) as (outs & E1 & E2). exists outs. auto.
Qed.
End Files.

(** ** The printed values, exactly *)
Section Exact.
Variable nset : nat.
Variable ds : nat -> lcset.
Variable scale : nat -> nat -> R.
Variable ng : nat.
Variable uniform : nat.
Variable uniform_var : bool.
Variable nq : nat.
Variable nd_rec : nat.
Variables low_ext upp_ext : R.
Variable one : list R -> arr -> arr -> nat -> rec_out.
Variable ratio : bool.
Variable ps : list (list R).
Notation np := (ParamModel.num_params nset (nlset ds) ng uniform uniform_var).
Notation params := (row_params nset ds ng uniform uniform_var ratio).
Notation pts := (points ds nd_rec).
Hypothesis HS : List.Forall (fun r => length r = np) ps.
Hypothesis HN : (1 <= length ps)%nat.
Lemma set_rows jk T order i first step tall : (1 <= T)%nat -> Permutation order (seq 0 T) ->
  set_times ds nd_rec low_ext upp_ext i = Ok (Some (concat (repeat (map (fun k => first + INR k * step) (seq 0 (pts i))) (1 + s_nl (ds i))))) ->
  tall = (fun a => nth a (concat (repeat (map (fun k => first + INR k * step) (seq 0 (pts i))) (1 + s_nl (ds i)))) 0) ->
  exists out, output_set nset ds scale ng uniform uniform_var nq nd_rec low_ext upp_ext one ratio jk (length ps) T order (concat ps) i = Ok (Some out)
    /\ (forall c k, (c < 1 + s_nl (ds i))%nat -> (k < pts i)%nat -> tall (c * pts i + k)%nat = first + INR k * step)
    /\ (forall c k, (c < 1 + s_nl (ds i))%nat -> (k < pts i)%nat -> exists curve e, nth_error (fst out) c = Some curve /\
         nth_error curve k = Some (first + INR k * step, (PropRec.mean_of (map (fun row => rec_f (one row tall (params row) i) (c * pts i + k)%nat) ps) * scale i c, e)))
    /\ (forall c k, (c < 1 + s_nl (ds i))%nat -> (k < nq)%nat -> exists e,
         nth_error (snd out) (c * nq + k)%nat = Some (PropRec.mean_of (map (fun row => rec_yq (one row tall (params row) i) (c * nq + k)%nat) ps) * scale i c, e)).
Proof.
  intros HT HO ET TD. unfold output_set. rewrite ET. cbn [bind].
  set (g := map (fun k => first + INR k * step) (seq 0 (pts i))) in *.
  assert (LG : length g = pts i) by (unfold g; rewrite map_length, seq_length; reflexivity).
  rewrite <- TD. set (rec := fun row => as_recon (one row tall (params row) i)).
  destruct (PropRec.C48_result jk (length ps) np T order (repeat (pts i) (1 + s_nl (ds i))) nq (map (scale i) (seq 0 (1 + s_nl (ds i)))) rec (concat ps) HT HN (length_concat ps np HS) HO)
    as (cs & tr & E & LC & LT & R).
  { rewrite repeat_length, map_length, seq_length. reflexivity. }
  rewrite E. cbn [bind]. eexists. split; [reflexivity|]. rewrite repeat_length in LC, LT.
  assert (RC : forall c, (c < 1 + s_nl (ds i))%nat -> nth_error (repeat (pts i) (1 + s_nl (ds i))) c = Some (pts i)).
  { intros c C. rewrite (nth_error_nth' _ (pts i)) by (rewrite repeat_length; exact C). rewrite nth_repeat. reflexivity. }
  split; [|split].
  - intros c k C K. rewrite TD. rewrite <- LG at 1. rewrite nth_concat_repeat by (rewrite ?LG; assumption). unfold g. rewrite nth_map_seq by exact K. reflexivity.
  - intros c k C K. destruct (R c (pts i) (scale i c) (RC c C) (nth_error_map_seq _ _ _ C)) as (_ & R1 & _).
    cbn [fst]. rewrite (nth_error_map_seq (fun c => curve_rows _ (pts i) c (nth c cs []))) by exact C.
    destruct (R1 k K) as (cur & C1 & V). cbn zeta in V. rewrite sum_repeat in V by lia. rewrite !(column_rows _ rec ps np _ HS) in V.
    eexists. eexists. split; [reflexivity|]. rewrite (nth_error_nth _ _ [] C1).
    assert (PR : firstn (pts i) (skipn (c * pts i) (concat (repeat g (1 + s_nl (ds i))))) = g) by (rewrite <- LG; apply part_repeat, C).
    unfold curve_rows. rewrite PR. apply nth_error_combine; [unfold g; rewrite nth_error_map_seq by exact K; reflexivity|exact V].
  - intros c k C K. destruct (R c (pts i) (scale i c) (RC c C) (nth_error_map_seq _ _ _ C)) as (_ & _ & R2).
    specialize (R2 k K). cbn zeta in R2. rewrite (column_rows _ rec ps np _ HS) in R2. eexists. exact R2.
Qed.
End Exact.
Lemma Rsum_lin {A} (f h : A -> R) l : PropRec.Rsum (map (fun x => f x + h x) l) = PropRec.Rsum (map f l) + PropRec.Rsum (map h l).
Proof. unfold PropRec.Rsum. induction l as [|x l IH]; cbn [map fold_right]; [lra|]. rewrite IH. lra. Qed.
Lemma Rsum_mult {A} (f : A -> R) a l : PropRec.Rsum (map (fun x => f x * a) l) = PropRec.Rsum (map f l) * a.
Proof. unfold PropRec.Rsum. induction l as [|x l IH]; cbn [map fold_right]; [lra|]. rewrite IH. lra. Qed.
Lemma mean_lin {A} (f h : A -> R) l : PropRec.mean_of (map (fun x => f x + h x) l) = PropRec.mean_of (map f l) + PropRec.mean_of (map h l).
Proof. unfold PropRec.mean_of. rewrite !map_length, Rsum_lin. unfold Rdiv. ring. Qed.
Lemma mean_mult {A} (f : A -> R) a l : PropRec.mean_of (map (fun x => f x * a) l) = PropRec.mean_of (map f l) * a.
Proof. unfold PropRec.mean_of. rewrite !map_length, Rsum_mult. unfold Rdiv. ring. Qed.
Lemma mean_zero {A} (l : list A) : PropRec.mean_of (map (fun _ => 0) l) = 0.
Proof. unfold PropRec.mean_of. rewrite (map_ext _ (fun x : A => 0 * 0)) by (intros; ring). rewrite Rsum_mult. unfold Rdiv. ring. Qed.
Lemma mean_sum {A} (f : nat -> A -> R) n l : PropRec.mean_of (map (fun x => sumn n (fun g => f g x)) l) = sumn n (fun g => PropRec.mean_of (map (f g) l)).
Proof. induction n as [|n IH]; cbn [sumn]; [apply mean_zero|]. rewrite mean_lin, IH. reflexivity. Qed.
