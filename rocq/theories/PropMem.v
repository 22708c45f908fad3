(** C90: every array of the likelihoods and of the reconstructions stays inside
    the memory that was allocated, and arrays in use together do not overlap. *)
From Coq Require Import NArith ZArith List String Bool Lia.
From Verif Require Import CPrelude MemModel MemSpec MemProofs.
Import ListNotations.
Local Open Scope N_scope.
Local Open Scope list_scope.

(** ** The continuum mode *)
Lemma le_int a b c : a <= b -> b <= c -> a <= c.
Proof. lia. Qed.

Theorem C90_continuum data nq h d :
  allocate data nq = Ok h -> In d data -> 1 <= nq <= 3 -> 1 <= con d ->
  safe h (prob_con (maxima_of data) nq d) /\ safe h (prob_con_semi (maxima_of data) nq d) /\
  (nq <= con d -> safe h (rec_con (maxima_of data) nq d) /\ safe h (rec_con_semi (maxima_of data) nq d)).
Proof.
  intros A I [Q1 Q3] C. destruct (allocate_ok _ _ _ A) as (-> & R0 & R1 & R2 & R3 & R4).
  pose proof (sizes_ok data nq d I) as Z. set (M := maxima_of data) in *. clearbody M.
  split; [|split].
  - destruct (prob_con_ok M nq d Z Q1 Q3 C) as [H1 H2]. split; [|split]; auto. intros b n [].
  - destruct (prob_con_semi_ok M nq d Z Q1 Q3 C) as [H1 H2]. split; [|split]; auto. intros b n [].
  - intros QC. pose proof (s_rec _ _ _ Z) as S1. pose proof (s_crec _ _ _ Z) as S2. pose proof (s_con _ _ _ Z) as S3.
    assert (L : con d * 3 <= nrec_max M) by lia.
    assert (X1 : con d * 3 * con d <= nrec_max M * nrec_max M) by (apply N.mul_le_mono; lia).
    assert (X2 : con d * 3 * (con d * 3) <= nrec_max M * nrec_max M) by (apply N.mul_le_mono; lia).
    assert (X3 : con d * 3 * nq <= nrec_max M * nrec_max M) by (apply N.mul_le_mono; lia).
    split.
    + destruct (rec_con_ok M nq d Z Q1 Q3 C QC) as [H1 H2]. split; [|split]; auto.
      intros b n H. cbn [rec_con own In] in H. unfold nscale in H.
      repeat (destruct H as [H|H]; [inversion H; lia|]). destruct H.
    + destruct (rec_con_semi_ok M nq d Z Q1 Q3 C QC) as [H1 H2]. split; [|split]; auto.
      intros b n H. cbn [rec_con_semi own In] in H. unfold nscale in H.
      repeat (destruct H as [H|H]; [inversion H; lia|]). destruct H.
Qed.
Print Assumptions C90_continuum.

(** Two sets, of 40 and 7 points. *)
Definition two_cons : list curves := [{| con := 40; lines := [] |}; {| con := 7; lines := [] |}].
Example C90_continuum_case : exists h, allocate two_cons 3 = Ok h /\
  safe h (rec_con_semi (maxima_of two_cons) 3 {| con := 7; lines := [] |}).
Proof.
  destruct (allocate two_cons 3) as [h| | |] eqn:E; try (vm_compute in E; discriminate).
  exists h. split; auto. apply (C90_continuum two_cons 3 h); auto; cbn; try lia. auto.
Qed.

(** ** The modes with lines *)
Lemma rec_nt M nq nd_rec d : sizes M nq d -> sumN (rec_sizes nd_rec d) <= nrec_max M.
Proof.
  intros Z. pose proof (s_rec _ _ _ Z). unfold rec_sizes. rewrite sum_repeat.
  assert (rec_points nd_rec d * (1 + nlset d) <= con d * 3 * (1 + nlset d)) by (apply N.mul_le_mono_r; unfold rec_points, nscale; lia).
  unfold nlset in *. lia.
Qed.

Theorem C90_lines data nq nd_rec h d :
  allocate data nq = Ok h -> In d data -> 1 <= nq <= 3 -> 1 <= con d ->
  safe h (prob_line (maxima_of data) nq d) /\ safe h (prob_mmap (maxima_of data) nq d) /\
  (nq <= nd_rec ->
     safe h (rec_single (maxima_of data) nq nd_rec d) /\ safe h (rec_single_mmap (maxima_of data) nq nd_rec d) /\
     (lines d <> [] -> nq * (1 + nlset d) <= nall d ->
        safe h (rec_line (maxima_of data) nq nd_rec d) /\ safe h (rec_mmap (maxima_of data) nq nd_rec d))).
Proof.
  intros A I [Q1 Q3] C. destruct (allocate_ok _ _ _ A) as (-> & R0 & R1 & R2 & R3 & R4).
  pose proof (sizes_ok data nq d I) as Z. set (M := maxima_of data) in *. clearbody M.
  split; [|split].
  - destruct (prob_line_ok M nq d Z Q1 Q3 C) as [H1 H2]. split; [|split]; auto. intros b n [].
  - destruct (prob_mmap_ok M nq d Z Q1 Q3 C) as [H1 H2]. split; [|split]; auto. intros b n [].
  - intros HN. pose proof (rec_nt M nq nd_rec d Z) as NT. pose proof (s_all _ _ _ Z) as NA.
    set (nt := sumN (rec_sizes nd_rec d)) in *.
    assert (X1 : nt * nall d <= nrec_max M * nall_max M) by (apply N.mul_le_mono; lia).
    assert (X2 : nt * nt <= nrec_max M * nrec_max M) by (apply N.mul_le_mono; lia).
    assert (X3 : forall m, m = (if nall_max M <? nt then nt else nall_max M) -> m * m <= int_max).
    { intros m ->. destruct (nall_max M <? nt); lia. }
    pose proof (X3 _ eq_refl) as X4.
    split; [|split].
    + destruct (rec_single_ok M nq d Z Q1 Q3 C nd_rec HN) as [H1 H2]. split; [|split]; auto.
      intros b n H. cbn [rec_single rec_single_with rec_dense own In] in H. fold nt in H.
      repeat (destruct H as [H|H]; [inversion H; lia|]). destruct H.
    + destruct (rec_single_mmap_ok M nq d Z Q1 Q3 C nd_rec HN) as [H1 H2]. split; [|split]; auto.
      intros b n H. cbn [rec_single_mmap rec_single_with rec_dense own In] in H. fold nt in H.
      repeat (destruct H as [H|H]; [inversion H; lia|]). destruct H.
    + intros HL HP. split.
      * destruct (rec_line_ok M nq d Z Q1 Q3 C nd_rec HN HL HP) as [H1 H2]. split; [|split]; auto.
        intros b n H. cbn [rec_line rec_line_with own In] in H. fold nt in H.
        repeat (destruct H as [H|H]; [inversion H; lia|]). destruct H.
      * destruct (rec_mmap_ok M nq d Z Q1 Q3 C nd_rec HN HL HP) as [H1 H2]. split; [|split]; auto.
        intros b n H. cbn [rec_mmap rec_line_with own In] in H. fold nt in H.
        repeat (destruct H as [H|H]; [inversion H; lia|]). destruct H.
Qed.
Print Assumptions C90_lines.

(** Sets with two lines and with one; the first has more points than the
    reconstruction asks for. *)
Definition some_lines : list curves := [{| con := 120; lines := [60; 55] |}; {| con := 10; lines := [8] |}].
Example C90_lines_case : exists h, allocate some_lines 2 = Ok h /\
  safe h (rec_line (maxima_of some_lines) 2 200 {| con := 120; lines := [60; 55] |}) /\
  safe h (rec_mmap (maxima_of some_lines) 2 200 {| con := 10; lines := [8] |}).
Proof.
  destruct (allocate some_lines 2) as [h| | |] eqn:E; try (vm_compute in E; discriminate).
  exists h. split; auto. split.
  - apply (C90_lines some_lines 2 200 h); auto; cbn; try lia; auto; discriminate.
  - apply (C90_lines some_lines 2 200 h); auto; cbn; try lia; auto; discriminate.
Qed.

(** ** The virtual mode *)
Lemma rec_nt_vmap M nq nd_rec d : sizes M nq d -> sumN (rec_sizes_vmap nd_rec d) <= nrec_max M.
Proof.
  intros Z. pose proof (s_rec_line _ _ _ Z) as S. unfold rec_sizes_vmap. rewrite sum_repeat.
  destruct (fold_points nd_rec (lines d) 0) as (_ & _ & [E|(n & I & E)]); unfold rec_points_vmap; rewrite E; [lia|].
  specialize (S n I).
  assert (N.min (n * nscale) nd_rec * (1 + nlset d) <= n * 3 * (1 + nlset d)) by (apply N.mul_le_mono_r; unfold nscale; lia).
  unfold nlset in *. lia.
Qed.

Theorem C90_virtual data nq nd_rec h d :
  allocate data nq = Ok h -> In d data -> 1 <= nq <= 3 -> con d = 0 ->
  lines d <> [] -> (forall n, In n (lines d) -> 1 <= n) ->
  safe h (prob_vmap (maxima_of data) nq d) /\ (nq <= nd_rec -> safe h (rec_vmap (maxima_of data) nq nd_rec d)).
Proof.
  intros A I [Q1 Q3] C L0 L1. destruct (allocate_ok _ _ _ A) as (-> & R0 & R1 & R2 & R3 & R4).
  pose proof (sizes_ok data nq d I) as Z. set (M := maxima_of data) in *. clearbody M.
  split.
  - destruct (prob_vmap_ok M nq d Z Q1 Q3 C L0 L1) as [H1 H2]. split; [|split]; auto. intros b n [].
  - intros HN. pose proof (rec_nt_vmap M nq nd_rec d Z) as NT.
    set (nt := sumN (rec_sizes_vmap nd_rec d)) in *.
    assert (X2 : nt * nt <= nrec_max M * nrec_max M) by (apply N.mul_le_mono; lia).
    assert (X3 : forall m, m = (if nall_max M <? nt then nt else nall_max M) -> m * m <= int_max).
    { intros m ->. destruct (nall_max M <? nt); lia. }
    pose proof (X3 _ eq_refl) as X4.
    destruct (rec_vmap_ok M nq d Z Q1 Q3 C L0 L1 nd_rec HN) as [H1 H2]. split; [|split]; auto.
    intros b n H. cbn [rec_vmap rec_dense own In] in H. fold nt in H.
    repeat (destruct H as [H|H]; [inversion H; lia|]). destruct H.
Qed.
Print Assumptions C90_virtual.

Definition virtual_lines : list curves := [{| con := 0; lines := [60; 55; 20] |}].
Example C90_virtual_case : exists h, allocate virtual_lines 1 = Ok h /\
  safe h (rec_vmap (maxima_of virtual_lines) 1 200 {| con := 0; lines := [60; 55; 20] |}).
Proof.
  destruct (allocate virtual_lines 1) as [h| | |] eqn:E; try (vm_compute in E; discriminate).
  exists h. split; auto. apply (C90_virtual virtual_lines 1 200 h); auto; cbn; try lia; auto; try discriminate.
Qed.

(** ** When the sizes can be computed *)
(** With at most [P] points per curve and [L] lines per set. *)
Definition within (P L : N) (d : curves) : Prop :=
  con d <= P /\ (forall n, In n (lines d) -> n <= P) /\ nlset d <= L.

Lemma sum_le l P : (forall n, In n l -> n <= P) -> sumN l <= N.of_nat (List.length l) * P.
Proof.
  induction l as [|a l IH]; intros H; [cbn; lia|]. cbn [sumN fold_right List.length]. change (fold_right N.add 0 l) with (sumN l).
  specialize (IH (fun n I => H n (or_intror I))). specialize (H a (or_introl eq_refl)). lia.
Qed.

Lemma line_max_le l P : (forall n, In n l -> n <= P) -> forall x, x <= P -> fold_left (fun x n => if x <? n then n else x) l x <= P.
Proof.
  induction l as [|a l IH]; intros H x X; cbn [fold_left]; auto. apply IH; [intros; apply H; right; auto|].
  specialize (H a (or_introl eq_refl)). destruct (x <? a); auto.
Qed.

Lemma maxima_le P L data : List.Forall (within P L) data -> forall m,
  ncon_max m <= P /\ nline_max m <= P /\ nall_max m <= P * (1 + L) /\ nlset_max m <= L /\ nrec_max m <= P * (1 + L) ->
  let r := fold_left max_step data m in
  ncon_max r <= P /\ nline_max r <= P /\ nall_max r <= P * (1 + L) /\ nlset_max r <= L /\ nrec_max r <= P * (1 + L).
Proof.
  induction 1 as [|d l (W1 & W2 & W3) F IH]; intros m H; cbn [fold_left]; auto. apply IH. clear IH F.
  destruct H as (H1 & H2 & H3 & H4 & H5). unfold max_step. cbn [ncon_max nline_max nall_max nlset_max nrec_max].
  pose proof (line_max_le (lines d) P W2 (nline_max m) H2) as LM.
  set (nl := fold_left _ (lines d) (nline_max m)) in *.
  assert (NC : (if ncon_max m <? con d then con d else ncon_max m) <= P) by (destruct (ncon_max m <? con d); auto).
  set (nc := if ncon_max m <? con d then con d else ncon_max m) in *.
  assert (A : nall d <= P * (1 + L)).
  { pose proof (sum_le _ _ W2) as S. unfold nall, nlset in *.
    assert (N.of_nat (List.length (lines d)) * P <= L * P) by (apply N.mul_le_mono_r; lia). lia. }
  assert (B : N.max nc nl * (1 + nlset d) <= P * (1 + L)) by (apply N.mul_le_mono; lia).
  repeat split; auto.
  - destruct (nall_max m <? nall d); auto.
  - destruct (nlset_max m <? nlset d); auto.
  - lia.
Qed.

Theorem C90_sizes data nq P L : 1 <= nq <= 3 -> 1 <= P -> P * (1 + L) <= 8000 ->
  (forall d, In d data -> within P L d) -> exists h, allocate data nq = Ok h.
Proof.
  intros [Q1 Q3] P1 S W.
  destruct (maxima_le P L data (proj2 (Forall_forall _ _) W) max0) as (B1 & B2 & B3 & B4 & B5).
  { cbn [max0 ncon_max nline_max nall_max nlset_max nrec_max]. lia. }
  assert (LP : 1 * (1 + L) <= P * (1 + L)) by (apply N.mul_le_mono_r; lia).
  assert (PL : P * 1 <= P * (1 + L)) by (apply N.mul_le_mono_l; lia).
  unfold allocate, maxima_of, read_max. set (m := fold_left max_step data max0) in *.
  set (M := scale_max m).
  assert (E1 : ncon_max M <= 8000) by (cbn; lia). assert (E2 : nline_max M <= 8000) by (cbn; lia).
  assert (E3 : nall_max M <= 8000) by (cbn; lia). assert (E4 : nrec_max M <= 24000) by (unfold M, scale_max, nscale; cbn [nrec_max]; lia).
  assert (E5 : ns_of M nq <= 24000).
  { unfold ns_of. assert (nlset_max M = nlset_max m) by reflexivity.
    assert ((1 + nlset_max M) * nq <= 8000 * 3) by (apply N.mul_le_mono; lia). lia. }
  clearbody M.
  assert (F1 : nall_max M * nall_max M <= 8000 * 8000) by (apply N.mul_le_mono; lia).
  assert (F2 : nall_max M * nrec_max M <= 8000 * 24000) by (apply N.mul_le_mono; lia).
  assert (F3 : nrec_max M * nrec_max M <= 24000 * 24000) by (apply N.mul_le_mono; lia).
  assert (F4 : ncon_max M * nline_max M <= 8000 * 8000) by (apply N.mul_le_mono; lia).
  assert (F5 : nline_max M * nline_max M <= 8000 * 8000) by (apply N.mul_le_mono; lia).
  assert (F6 : n_work M nq <= 5 * 8000 + (2 * 8000 + 2 * 24000 + 1 + 24000) * 24000).
  { unfold n_work. apply N.add_le_mono; [lia|]. apply N.mul_le_mono; lia. }
  rewrite (int_le (nrec_max M)) by (unfold int_max; lia). cbn [bind].
  rewrite (int_le (nall_max M * nall_max M)) by (unfold int_max; lia). cbn [bind].
  rewrite (int_le (nall_max M * nrec_max M)) by (unfold int_max; lia). cbn [bind].
  rewrite (int_le (nrec_max M * nrec_max M)) by (unfold int_max; lia). cbn [bind].
  rewrite (int_le (n_work M nq)) by (unfold int_max; lia). cbn [bind].
  rewrite (int_le (3 * nall_max M * nall_max M)) by (unfold int_max; lia). cbn [bind].
  rewrite (int_le (ncon_max M * nline_max M)) by (unfold int_max; lia). cbn [bind].
  rewrite (int_le (nline_max M * nline_max M)) by (unfold int_max; lia). cbn [bind].
  eauto.
Qed.
Print Assumptions C90_sizes.

Example C90_sizes_case : exists h, allocate some_lines 3 = Ok h.
Proof.
  apply (C90_sizes _ _ 120 2); try lia. intros d [<-|[<-|[]]]; unfold within; cbn; repeat split; try lia;
    intros n H; repeat (destruct H as [<-|H]; [lia|]); destruct H.
Qed.

(** ** What does not hold *)
(** Full statement: the sizes can be computed for all data.  A continuum and a
    line of 7724 points: 46344 reconstructed times, the square of which is not
    an [int]. *)
Theorem C90_overflow_refuted : exists data nq,
  1 <= nq <= 3 /\ (forall d, In d data -> 1 <= con d /\ lines d <> [] /\ con d <= 7724) /\ allocate data nq = UB.
Proof.
  exists [{| con := 7724; lines := [10] |}], 1. split; [lia|]. split.
  - intros d [<-|[]]; cbn; repeat split; try lia. discriminate.
  - vm_compute. reflexivity.
Qed.
Print Assumptions C90_overflow_refuted.

(** Full statement: the reconstruction is safe for all data with points in every
    curve.  Two curves of two points each and quadratic trends: [PEmat1] has
    [12 * 4] elements, and [12 * 6] are written. *)
Theorem C90_few_points_refuted : exists data nq nd_rec h d,
  allocate data nq = Ok h /\ In d data /\ 1 <= nq <= 3 /\ 2 <= con d /\ lines d <> [] /\ (forall n, In n (lines d) -> 2 <= n) /\
  nq <= nd_rec /\ ~ all_inside (with_locals h (own (rec_line (maxima_of data) nq nd_rec d))) (accs (rec_line (maxima_of data) nq nd_rec d)).
Proof.
  pose (d := {| con := 2; lines := [2] |}).
  destruct (allocate [d] 3) as [h| | |] eqn:E; try (vm_compute in E; discriminate).
  exists [d], 3, 200, h, d. split; [auto|]. split; [left; auto|]. split; [lia|]. split; [cbn; lia|]. split; [discriminate|].
  split; [intros n [<-|[]]; lia|]. split; [lia|]. intros H.
  specialize (H (PEmat1, mat 12 6)).
  assert (I : In (PEmat1, mat 12 6) (accs (rec_line (maxima_of [d]) 3 200 d))).
  { unfold rec_line, rec_line_with, mul_MN. cbn [accs].
    do 23 (apply in_or_app; right). apply in_or_app. left. right. right. left. reflexivity. }
  specialize (H I). unfold inside in H. cbn [snd fst] in H.
  specialize (H 48). assert (J : mat 12 6 48) by (exists 8, 0; repeat split; lia). specialize (H J).
  vm_compute in H. apply H. reflexivity.
Qed.
Print Assumptions C90_few_points_refuted.

(** The same with the continuum alone: one point and a linear trend. *)
Theorem C90_one_point_refuted : exists data nq h d,
  allocate data nq = Ok h /\ In d data /\ 1 <= nq <= 3 /\ 1 <= con d /\
  ~ all_inside (with_locals h (own (rec_con_semi (maxima_of data) nq d))) (accs (rec_con_semi (maxima_of data) nq d)).
Proof.
  pose (d := {| con := 1; lines := [] |}).
  destruct (allocate [d] 2) as [h| | |] eqn:E; try (vm_compute in E; discriminate).
  exists [d], 2, h, d. split; [auto|]. split; [left; auto|]. split; [lia|]. split; [cbn; lia|]. intros H.
  specialize (H (PEmat1, mat 3 2)).
  assert (I : In (PEmat1, mat 3 2) (accs (rec_con_semi (maxima_of [d]) 2 d))).
  { unfold rec_con_semi, mul_MN. cbn [accs].
    do 17 (apply in_or_app; right). apply in_or_app. left. right. right. left. reflexivity. }
  specialize (H I). unfold inside in H. cbn [snd fst] in H.
  specialize (H 3). assert (J : mat 3 2 3) by (exists 1, 1; repeat split; lia). specialize (H J).
  vm_compute in H. apply H. reflexivity.
Qed.
Print Assumptions C90_one_point_refuted.

(** Full statement: the reconstruction is safe for sets without lines too, which
    the reader accepts (read.c:577-583).  Ten points and a constant: the counts
    [narr] are put behind the end of the workspace. *)
Theorem C90_no_lines_refuted : exists data nq nd_rec h d,
  allocate data nq = Ok h /\ In d data /\ 1 <= nq <= 3 /\ 10 <= con d /\ nq <= nd_rec /\ nq * (1 + nlset d) <= nall d /\
  ~ all_inside (with_locals h (own (rec_line (maxima_of data) nq nd_rec d))) (accs (rec_line (maxima_of data) nq nd_rec d)).
Proof.
  pose (d := {| con := 10; lines := [] |}).
  destruct (allocate [d] 1) as [h| | |] eqn:E; try (vm_compute in E; discriminate).
  exists [d], 1, 200, h, d. split; [auto|]. split; [left; auto|]. split; [lia|]. split; [cbn; lia|]. split; [lia|].
  split; [cbn; lia|]. intros H.
  destruct (allocate_ok _ _ _ E) as (-> & _).
  pose (r := rec_line (maxima_of [d]) 1 200 d).
  assert (I : exists p, In (p, from 0 1) (accs r) /\ bk p = Bwork /\ off p = 1056 /\ es p = 4).
  { eexists. split.
    - unfold r, rec_line, rec_line_with. cbn [accs]. do 5 (apply in_or_app; right). apply in_or_app. left. left. reflexivity.
    - repeat split. }
  destruct I as (p & I & B & O & S). specialize (H _ I). unfold inside in H. cbn [snd fst] in H.
  specialize (H 0). assert (J : from 0 1 0) by (exists 0; lia). specialize (H J). unfold past_byte in H. rewrite O, S, B in H.
  vm_compute in H. apply H. reflexivity.
Qed.
Print Assumptions C90_no_lines_refuted.
