(** C36: the covariance matrices of a continuum and its lines. *)
From Coq Require Import Reals Lra Lia Arith List Bool.
From Coquelicot Require Import Coquelicot.
From Verif Require Import SemisepModel SemisepProofs KernelCalc KernelSpec KernelModel KernelGauss KernelGauss2 PropKernel CovModel CovProofs CovProofs2.
Import ListNotations.
Open Scope R_scope.

(** ** Specification *)
(** Light curves are laid out one after the other: curve 0 is the continuum, curve
    1, 2, ... are the lines.  [locate sizes a] is the curve and the index within
    it of position a. *)
Fixpoint locate (sizes : list nat) (a : nat) : option (nat * nat) :=
  match sizes with
  | [] => None
  | n :: r => if (a <? n)%nat then Some (0%nat, a) else option_map (fun ci => (S (fst ci), snd ci)) (locate r (a - n))
  end.
(** v is the covariance of curve c at time t with curve d at time s, in units of
    the continuum variance *)
Definition point_cov (psi : nat -> R -> R) (taud : R) (c d : nat) (t s v : R) : Prop :=
  match c, d with
  | O, O => v = exp (- Rabs (t - s) / taud)
  | O, S l => cov_cl (psi l) taud t s v
  | S j, O => cov_cl (psi j) taud s t v
  | S j, S l => cov_ll (psi j) (psi l) taud t s v
  end.
(** a matrix with a row for every position of [rows] and a column for every
    position of [cols], holding the covariances *)
Definition holds_cov (psi : nat -> R -> R) (taud : R) (rows cols : list nat) (trow tcol : nat -> nat -> R) (M : arr) : Prop :=
  forall a b, (a < list_sum rows)%nat -> (b < list_sum cols)%nat ->
  exists c i d m, locate rows a = Some (c, i) /\ locate cols b = Some (d, m)
    /\ point_cov psi taud c d (trow c i) (tcol d m) (M (a * list_sum cols + b)%nat).
Definition symmetric (n : nat) (M : arr) : Prop := forall a b, (a < n)%nat -> (b < n)%nat -> M (a * n + b)%nat = M (b * n + a)%nat.
Definition unchanged_from (n : nat) (before after : arr) : Prop := forall x, (n <= x)%nat -> after x = before x.
(** the noisy matrix is the noise-free one plus error^2/sigma^2 on the diagonal *)
Definition adds_noise (sizes : list nat) (noise : nat -> nat -> R) (noisefree noisy : arr) : Prop :=
  forall a b, (a < list_sum sizes)%nat -> (b < list_sum sizes)%nat ->
  exists c i, locate sizes a = Some (c, i)
    /\ noisy (a * list_sum sizes + b)%nat = noisefree (a * list_sum sizes + b)%nat + (if (a =? b)%nat then noise c i else 0).

(** transfer functions by type, and when the closed forms are exact *)
Definition shape_of (type_tf : nat) : comp -> R -> R :=
  match type_tf with 0 => gaussian | 1 => tophat | 2 => gamma2 | _ => exponential end%nat.
Definition decode (flag_negative_resp : bool) : R -> R := if flag_negative_resp then fun x => x else exp.
Definition good (log_erfc : R -> R) (type_tf : nat) (flag : bool) (taud : R) (ncomp nl : nat) (pm : arr) (start : nat -> nat) : Prop :=
  match type_tf with
  | 0 => log_erfc_correct log_erfc
  | 1 => True
  | _ => forall j, (j < nl)%nat -> clear taud ncomp (stored (decode flag) pm (start j))
  end%nat.

(** ** The layout of the model is the layout of the specification *)
Lemma locate_app c : forall l k, (k < nth c l 0)%nat -> (c < length l)%nat -> locate l (list_sum (firstn c l) + k) = Some (c, k).
Proof.
  induction c as [|c IH]; intros [|n l] k K L; cbn [length] in L; try lia.
  - cbn [firstn list_sum fold_right locate]. cbn in K. destruct (Nat.ltb_spec (0 + k) n); [reflexivity|lia].
  - cbn [firstn list_sum fold_right locate]. fold (list_sum (firstn c l)). cbn in K.
    destruct (Nat.ltb_spec (n + list_sum (firstn c l) + k) n); [lia|].
    replace (n + list_sum (firstn c l) + k - n)%nat with (list_sum (firstn c l) + k)%nat by lia. rewrite IH by lia. reflexivity.
Qed.
Definition sizes_of (size : nat -> nat) (nl : nat) : list nat := map size (seq 0 (S nl)).
Lemma firstn_seq c : forall s n, (c <= n)%nat -> firstn c (seq s n) = seq s c.
Proof. induction c as [|c IH]; intros s [|n] L; try reflexivity; try lia. cbn. rewrite IH by lia. reflexivity. Qed.
Lemma sum_seq size c : list_sum (map size (seq 0 c)) = start size c.
Proof.
  induction c as [|c IH]; [reflexivity|]. rewrite seq_S, map_app, list_sum_app, IH, start_S. cbn. lia.
Qed.
Lemma total_sizes size nl : list_sum (sizes_of size nl) = total size nl.
Proof. apply sum_seq. Qed.
Lemma locate_pos size nl p : valid size nl p -> locate (sizes_of size nl) (pos size p) = Some p.
Proof.
  intros [V1 V2]. destruct p as [c i]. cbn [fst snd] in *. unfold pos. cbn [fst snd].
  rewrite <- sum_seq. rewrite <- (firstn_seq c 0 (S nl)) by lia. rewrite <- firstn_map. apply locate_app.
  - rewrite nth_indep with (d' := size 0%nat) by (rewrite map_length, seq_length; lia). rewrite map_nth, seq_nth by lia. exact V2.
  - unfold sizes_of. rewrite map_length, seq_length. lia.
Qed.
Lemma sizes_lines ncon nl nline : sizes_of (size ncon nline) nl = ncon :: map nline (seq 0 nl).
Proof. unfold sizes_of. cbn [seq map]. rewrite <- seq_shift, map_map. reflexivity. Qed.

Section Generic.
Variable ncon : nat.
Variable tcon fe_con : arr.
Variable error_mean_con : R.
Variable nl : nat.
Variable nline : nat -> nat.
Variable tline fe_line : nat -> arr.
Variable error_mean_line : nat -> R.
Variable pm : arr.
Variable idx_con : nat.
Variable idx_line : nat -> nat.
Variable Slc : R -> R -> nat -> R.
Variable Sll : R -> R -> nat -> R.
Variable Sll2 : R -> R -> nat -> nat -> R.
Variable psi : nat -> R -> R.
Notation taud := (tau pm idx_con).
Hypothesis Hcl : forall t s j, (j < nl)%nat -> cov_cl (psi j) taud t s (Slc t s j).
Hypothesis Hll2 : forall t s j l, (j < nl)%nat -> (l < nl)%nat -> cov_ll (psi j) (psi l) taud t s (Sll2 t s j l).
Hypothesis Hll : forall t s j, Sll t s j = Sll2 t s j j.
Hypothesis Hsym : forall t s j l, (j < nl)%nat -> (l < nl)%nat -> Sll2 t s j l = Sll2 s t l j.

Lemma sym_value_cov T p q : (fst p <= nl)%nat -> (fst q <= nl)%nat ->
  point_cov psi taud (fst p) (fst q) (T p) (T q) (sym_value taud Slc Sll Sll2 T p q).
Proof.
  intros P Q. unfold sym_value, point_cov. destruct (fst p) as [|j], (fst q) as [|l].
  - reflexivity.
  - apply Hcl. lia.
  - apply Hcl. lia.
  - destruct (Nat.ltb_spec j l); [apply Hll2; lia|]. destruct (Nat.ltb_spec l j).
    + rewrite Hsym by lia. apply Hll2; lia.
    + assert (j = l) by lia. subst l. rewrite !Hll. destruct (Nat.leb_spec (snd q) (snd p)); [apply Hll2; lia|].
      rewrite Hsym by lia. apply Hll2; lia.
Qed.
Lemma rect_value_cov T T' p q : (fst p <= nl)%nat -> (fst q <= nl)%nat ->
  point_cov psi taud (fst p) (fst q) (T p) (T' q) (rect_value taud Slc Sll Sll2 T T' p q).
Proof.
  intros P Q. unfold rect_value, point_cov. destruct (fst p) as [|j], (fst q) as [|l].
  - reflexivity.
  - apply Hcl. lia.
  - apply Hcl. lia.
  - destruct (Nat.eqb_spec j l); [subst; rewrite Hll|]; apply Hll2; lia.
Qed.

Notation dsize := (size ncon nline).
Notation sizes := (ncon :: map nline (seq 0 nl)).
Notation n := (list_sum sizes).
Definition time (c i : nat) : R := match c with O => tcon i | S j => tline j i end.
Definition noise_of (c i : nat) : R :=
  let err := match c with O => fe_con i | S j => fe_line j i end in
  let sys := match c with O => (exp (pm idx_con) - 1) * error_mean_con | S j => (exp (pm (idx_line j)) - 1) * error_mean_line j end in
  let sig := exp (pm (idx_con + 1)%nat) * sqrt (exp (pm (idx_con + 2)%nat)) in
  (err ^ 2 + sys ^ 2) / sig ^ 2.
Lemma n_total : n = total dsize nl.
Proof. rewrite <- total_sizes, sizes_lines. reflexivity. Qed.
Lemma surj a : (a < n)%nat -> exists p, valid dsize nl p /\ pos dsize p = a /\ locate sizes a = Some (fst p, snd p).
Proof.
  rewrite n_total. intros A. destruct (pos_surj _ _ a A) as (p & V & P). exists p. split; [exact V|]. split; [exact P|].
  rewrite <- P. pose proof (locate_pos _ nl p V) as L. rewrite sizes_lines in L. rewrite L. destruct p; reflexivity.
Qed.
Lemma noise_err p : err fe_con error_mean_con fe_line error_mean_line pm idx_con idx_line p = noise_of (fst p) (snd p).
Proof.
  unfold err, noise_of, sigma, syserr, syserr_line, tau. rewrite Nat.add_0_r. cbv zeta.
  assert (S1 : exp (pm (idx_con + 1)%nat) <> 0) by (apply Rgt_not_eq, exp_pos).
  assert (S2 : sqrt (exp (pm (idx_con + 2)%nat)) <> 0) by (apply Rgt_not_eq, sqrt_lt_R0, exp_pos).
  destruct (fst p); field; split; assumption.
Qed.

(** what the theorems say about a pair of data matrices *)
Definition shape (before after : mats) : Prop :=
  adds_noise sizes noise_of (snd after) (fst after)
  /\ symmetric n (snd after) /\ symmetric n (fst after)
  /\ unchanged_from (n * n) (snd before) (snd after) /\ unchanged_from (n * n) (fst before) (fst after).
Definition entries (M' : mats) : Prop := forall p q, valid dsize nl p -> valid dsize nl q ->
    snd M' (adr dsize nl p q) = sym_value taud Slc Sll Sll2 (T tcon tline) p q
    /\ fst M' (adr dsize nl p q) = sym_value taud Slc Sll Sll2 (T tcon tline) p q
       + dg (err fe_con error_mean_con fe_line error_mean_line pm idx_con idx_line) p q.
Lemma entries_at M' a b : entries M' -> (a < n)%nat -> (b < n)%nat ->
  exists p q, valid dsize nl p /\ valid dsize nl q /\ pos dsize p = a /\ pos dsize q = b
     /\ locate sizes a = Some (fst p, snd p) /\ locate sizes b = Some (fst q, snd q)
     /\ snd M' (a * n + b)%nat = sym_value taud Slc Sll Sll2 (T tcon tline) p q
     /\ fst M' (a * n + b)%nat = sym_value taud Slc Sll Sll2 (T tcon tline) p q + (if (a =? b)%nat then noise_of (fst p) (snd p) else 0).
Proof.
  intros E A B. destruct (surj a A) as (p & P1 & P2 & P3), (surj b B) as (q & Q1 & Q2 & Q3).
  assert (Ad : adr dsize nl p q = (pos dsize p * n + pos dsize q)%nat) by (unfold adr; rewrite n_total; reflexivity).
  exists p, q. repeat (split; [assumption|]). destruct (E p q P1 Q1) as [E1 E2]. rewrite Ad, P2, Q2 in E1, E2.
  split; [exact E1|]. rewrite E2. f_equal. unfold dg. destruct (point_dec p q) as [->|N].
  - rewrite <- P2, <- Q2, Nat.eqb_refl. apply noise_err.
  - destruct (Nat.eqb_spec a b) as [X|X]; [|reflexivity]. exfalso. apply N. apply (pos_inj dsize nl); auto. congruence.
Qed.
Lemma shape_intro M M' : frM dsize nl M M' /\ entries M' -> shape M M'.
Proof.
  intros [F E]. unfold shape. pose proof (fun a b => entries_at M' a b E) as G.
  assert (S1 : symmetric n (snd M')).
  { intros a b A B. destruct (G a b A B) as (p & q & P1 & Q1 & P2 & Q2 & _ & _ & E1 & _).
    destruct (G b a B A) as (q' & p' & Q1' & P1' & Q2' & P2' & _ & _ & E1' & _).
    assert (p' = p) by (apply (pos_inj dsize nl); auto; congruence). assert (q' = q) by (apply (pos_inj dsize nl); auto; congruence). subst p' q'.
    rewrite E1, E1'. apply sym_value_sym. }
  assert (N1 : adds_noise sizes noise_of (snd M') (fst M')).
  { intros a b A B. destruct (G a b A B) as (p & q & P1 & Q1 & P2 & Q2 & P3 & Q3 & E1 & E2).
    exists (fst p), (snd p). split; [exact P3|]. rewrite E2, E1. reflexivity. }
  repeat split; auto.
  - intros a b A B. destruct (N1 a b A B) as (c & i & L & ->). destruct (N1 b a B A) as (d & m & L' & ->).
    rewrite (S1 a b A B), (Nat.eqb_sym b a). destruct (Nat.eqb_spec a b) as [->|]; [|reflexivity]. rewrite L in L'. injection L' as -> ->. reflexivity.
  - intros x X. apply F. rewrite <- n_total. exact X.
  - intros x X. apply F. rewrite <- n_total. exact X.
Qed.
Lemma cov_intro M' : entries M' -> holds_cov psi taud sizes sizes time time (snd M').
Proof.
  intros E a b A B. destruct (entries_at M' a b E A B) as (p & q & P1 & Q1 & P2 & Q2 & P3 & Q3 & E1 & E2).
  exists (fst p), (snd p), (fst q), (snd q). split; [exact P3|]. split; [exact Q3|]. rewrite E1.
  apply (sym_value_cov (T tcon tline) p q); [apply P1|apply Q1].
Qed.
Notation scalar_of M := (set_covar_Pmat_data_line ncon tcon fe_con error_mean_con nl nline tline fe_line error_mean_line pm idx_con idx_line Slc Sll Sll2 n M).
Lemma scalar_frame M : frM dsize nl M (scalar_of M) /\ entries (scalar_of M).
Proof. unfold entries. rewrite n_total. apply Pmat_spec. Qed.
Section Array.
Variable Slc_array : arr -> nat -> arr -> nat -> nat -> arr -> arr.
Variable Sll_array : arr -> nat -> nat -> arr -> arr.
Variable Sll2_array : arr -> nat -> arr -> nat -> nat -> nat -> arr -> arr.
Hypothesis Slc_ok : forall t1 n1 t2 n2 l B, block n1 n2 (Slc_array t1 n1 t2 n2 l B) (fun i m => Slc (t1 i) (t2 m) l).
Hypothesis Sll_ok : forall t1 n1 l B, lower_block n1 (Sll_array t1 n1 l B) B (fun i m => Sll (t1 i) (t1 m) l).
Hypothesis Sll2_ok : forall t1 n1 t2 n2 l1 l2 B, block n1 n2 (Sll2_array t1 n1 t2 n2 l1 l2 B) (fun i m => Sll2 (t1 i) (t2 m) l1 l2).
Notation array_of M B1 B2 := (set_covar_Pmat_data_line_array ncon tcon fe_con error_mean_con nl nline tline fe_line error_mean_line pm idx_con idx_line
  Slc_array Sll_array Sll2_array n M B1 B2).
Lemma array_frame M B1 B2 : frM dsize nl M (array_of M B1 B2) /\ entries (array_of M B1 B2).
Proof.
  unfold entries. rewrite n_total. apply Pmat_array_spec.
  - intros t1 n1 t2 n2 l B i m I J. apply (Slc_ok t1 n1 t2 n2 l B i m I J).
  - intros t1 n1 l B i m I J. rewrite (Sll_ok t1 n1 l B i m) by lia. destruct (Nat.leb_spec m i); [reflexivity|lia].
  - intros t1 n1 t2 n2 l1 l2 B i m I J. apply (Sll2_ok t1 n1 t2 n2 l1 l2 B i m I J).
Qed.
Lemma data_same M B1 B2 a b : (a < n)%nat -> (b < n)%nat ->
  snd (array_of M B1 B2) (a * n + b)%nat = snd (scalar_of M) (a * n + b)%nat
  /\ fst (array_of M B1 B2) (a * n + b)%nat = fst (scalar_of M) (a * n + b)%nat.
Proof.
  intros A B. destruct (entries_at _ a b (proj2 (scalar_frame M)) A B) as (p & q & P1 & Q1 & P2 & Q2 & _ & _ & E1 & E2).
  destruct (entries_at _ a b (proj2 (array_frame M B1 B2)) A B) as (p' & q' & P1' & Q1' & P2' & Q2' & _ & _ & E1' & E2').
  assert (p' = p) by (apply (pos_inj dsize nl); auto; congruence). assert (q' = q) by (apply (pos_inj dsize nl); auto; congruence). subst p' q'.
  rewrite E1, E2, E1', E2'. split; reflexivity.
Qed.
End Array.

(** reconstruction points: nrec 0 continuum times, nrec (1+j) times of line j, all
    in one array *)
Variable nrec : nat -> nat.
Variable trec : arr.
Notation rsizes := (map nrec (seq 0 (S nl))).
Notation nr := (list_sum rsizes).
Definition rtime (c i : nat) : R := trec (list_sum (map nrec (seq 0 c)) + i)%nat.
Lemma nr_total : nr = total nrec nl. Proof. apply total_sizes. Qed.
Lemma rsurj a : (a < nr)%nat -> exists p, valid nrec nl p /\ pos nrec p = a /\ locate rsizes a = Some (fst p, snd p).
Proof.
  rewrite nr_total. intros A. destruct (pos_surj _ _ a A) as (p & V & P). exists p. split; [exact V|]. split; [exact P|].
  rewrite <- P. pose proof (locate_pos _ nl p V) as L. unfold sizes_of in L. rewrite L. destruct p; reflexivity.
Qed.
Lemma rtime_T p : rtime (fst p) (snd p) = Trec nrec trec p.
Proof. unfold rtime, Trec, pos. rewrite sum_seq. reflexivity. Qed.
Lemma cross U : let U' := set_covar_Umat_line ncon tcon nl nline tline pm idx_con Slc Sll Sll2 n nrec trec U in
  holds_cov psi taud rsizes sizes rtime time U' /\ unchanged_from (nr * n) U U'.
Proof.
  cbv zeta. rewrite n_total. destruct (Umat_spec ncon tcon nl nline tline pm idx_con Slc Sll Sll2 nrec trec U) as [F E].
  set (U' := set_covar_Umat_line _ _ _ _ _ _ _ _ _ _ _ _ _ _) in *. split.
  - intros a b A B. destruct (rsurj a A) as (p & P1 & P2 & P3), (surj b B) as (q & Q1 & Q2 & Q3).
    exists (fst p), (snd p), (fst q), (snd q). split; [exact P3|]. split; [exact Q3|].
    pose proof (E p q P1 Q1) as E1. unfold adr2 in E1. rewrite P2, Q2, <- n_total in E1. rewrite E1, rtime_T.
    apply (rect_value_cov (Trec nrec trec) (T tcon tline) p q); [apply P1|apply Q1].
  - intros x X. apply F. rewrite <- nr_total. exact X.
Qed.
Lemma recon A : let A' := set_covar_Amat_line nl pm idx_con Slc Sll Sll2 nrec trec A in
  holds_cov psi taud rsizes rsizes rtime rtime A' /\ symmetric nr A' /\ unchanged_from (nr * nr) A A'.
Proof.
  cbv zeta. destruct (Amat_spec nl pm idx_con Slc Sll Sll2 nrec trec A) as [F E].
  set (A' := set_covar_Amat_line _ _ _ _ _ _ _ _ _) in *.
  assert (G : forall a b, (a < nr)%nat -> (b < nr)%nat -> exists p q, valid nrec nl p /\ valid nrec nl q /\ pos nrec p = a /\ pos nrec q = b
     /\ locate rsizes a = Some (fst p, snd p) /\ locate rsizes b = Some (fst q, snd q)
     /\ A' (a * nr + b)%nat = sym_value taud Slc Sll Sll2 (Trec nrec trec) p q).
  { intros a b H1 H2. destruct (rsurj a H1) as (p & P1 & P2 & P3), (rsurj b H2) as (q & Q1 & Q2 & Q3).
    exists p, q. repeat (split; [assumption|]). pose proof (E p q P1 Q1) as E1. unfold adr2 in E1. rewrite P2, Q2, <- nr_total in E1. exact E1. }
  repeat split.
  - intros a b H1 H2. destruct (G a b H1 H2) as (p & q & P1 & Q1 & P2 & Q2 & P3 & Q3 & E1).
    exists (fst p), (snd p), (fst q), (snd q). split; [exact P3|]. split; [exact Q3|]. rewrite E1, !rtime_T.
    apply (sym_value_cov (Trec nrec trec) p q); [apply P1|apply Q1].
  - intros a b H1 H2. destruct (G a b H1 H2) as (p & q & P1 & Q1 & P2 & Q2 & _ & _ & E1).
    destruct (G b a H2 H1) as (q' & p' & Q1' & P1' & Q2' & P2' & _ & _ & E1').
    assert (p' = p) by (apply (pos_inj nrec nl); auto; congruence). assert (q' = q) by (apply (pos_inj nrec nl); auto; congruence). subst p' q'.
    rewrite E1, E1'. apply sym_value_sym.
  - intros x X. apply F. rewrite <- nr_total. exact X.
Qed.
End Generic.

(** ** The kernels the code selects *)
Section Selected.
Variable log_erfc : R -> R.
Variable type_tf : nat.
Variable flag : bool.
Variable icp : nat -> nat.
Variable ilp : nat -> nat -> nat.
Variable ncomp : nat.
Variable pm : arr.
Variable nds : nat.
Variable nl : nat.
Notation K := (pointers log_erfc type_tf flag icp ilp ncomp pm nds).
Notation psi := (fun j => response (shape_of type_tf) ncomp (stored (decode flag) pm (ilp nds j))).
Notation taud := (exp (pm (icp nds + 2)%nat)).

Lemma kernel_arrays :
  (forall t1 n1 t2 n2 l B, block n1 n2 (k_lc_array K t1 n1 t2 n2 l B) (fun i m => k_lc K (t1 i) (t2 m) l))
  /\ (forall t1 n1 l B, lower_block n1 (k_ll_array K t1 n1 l B) B (fun i m => k_ll K (t1 i) (t1 m) l))
  /\ (forall t1 n1 t2 n2 l1 l2 B, block n1 n2 (k_ll2_array K t1 n1 t2 n2 l1 l2 B) (fun i m => k_ll2 K (t1 i) (t2 m) l1 l2)).
Proof.
  unfold pointers. fold (decode flag). destruct type_tf as [|[|[|k]]]; cbn [k_lc k_ll k_ll2 k_lc_array k_ll_array k_ll2_array]; repeat apply conj; intros.
  - apply (C35_gaussian_arrays (decode flag) icp ilp ncomp log_erfc pm nds l l t1 n1 t2 n2 B).
  - apply (C35_gaussian_arrays (decode flag) icp ilp ncomp log_erfc pm nds l l t1 n1 t1 n1 B).
  - apply (C35_gaussian_arrays (decode flag) icp ilp ncomp log_erfc pm nds l1 l2 t1 n1 t2 n2 B).
  - apply (C35_tophat_arrays (decode flag) icp ilp ncomp pm nds l l t1 n1 t2 n2 B).
  - apply (C35_tophat_arrays (decode flag) icp ilp ncomp pm nds l l t1 n1 t1 n1 B).
  - apply (C35_tophat_arrays (decode flag) icp ilp ncomp pm nds l1 l2 t1 n1 t2 n2 B).
  - apply (C35_gamma_arrays (decode flag) icp ilp ncomp pm nds l l t1 n1 t2 n2 B).
  - apply (C35_gamma_arrays (decode flag) icp ilp ncomp pm nds l l t1 n1 t1 n1 B).
  - apply (C35_gamma_arrays (decode flag) icp ilp ncomp pm nds l1 l2 t1 n1 t2 n2 B).
  - apply (C35_exponential_arrays (decode flag) icp ilp ncomp pm nds l l t1 n1 t2 n2 B).
  - apply (C35_exponential_arrays (decode flag) icp ilp ncomp pm nds l l t1 n1 t1 n1 B).
  - apply (C35_exponential_arrays (decode flag) icp ilp ncomp pm nds l1 l2 t1 n1 t2 n2 B).
Qed.
Hypothesis G : good log_erfc type_tf flag taud ncomp nl pm (ilp nds).
Lemma kernel_facts :
  (forall t s j, (j < nl)%nat -> cov_cl (psi j) taud t s (k_lc K t s j))
  /\ (forall t s j l, (j < nl)%nat -> (l < nl)%nat -> cov_ll (psi j) (psi l) taud t s (k_ll2 K t s j l))
  /\ (forall t s j, k_ll K t s j = k_ll2 K t s j j)
  /\ (forall t s j l, (j < nl)%nat -> (l < nl)%nat -> k_ll2 K t s j l = k_ll2 K s t l j).
Proof.
  unfold pointers. fold (decode flag). destruct type_tf as [|[|[|k]]]; cbn [k_lc k_ll k_ll2 k_lc_array k_ll_array k_ll2_array shape_of] in *;
  repeat apply conj; intros; try reflexivity.
  - apply C34_gaussian_continuum_line. exact G.
  - apply C34_gaussian_line_line. exact G.
  - apply C35_gaussian_symmetric.
  - apply C31_tophat_continuum_line.
  - apply C31_tophat_line_line.
  - apply C35_tophat_symmetric.
  - apply C33_gamma_continuum_line. apply G. assumption.
  - apply C33_gamma_line_line; apply G; assumption.
  - apply C35_gamma_symmetric. right. split; apply G; assumption.
  - apply C32_exponential_continuum_line. apply G. assumption.
  - apply C32_exponential_line_line; apply G; assumption.
  - apply C35_exponential_symmetric. right. split; apply G; assumption.
Qed.
End Selected.

(** ** The theorems.
    For any continuum and any number of lines of any lengths (also empty), any
    transfer-function type, amplitudes stored as logarithms or directly: *)
Section Theorems.
Variable log_erfc : R -> R.
Variable type_tf : nat.
Variable flag : bool.
Variable icp : nat -> nat.
Variable ilp : nat -> nat -> nat.
Variable ncomp : nat.
Variable pm : arr.
Variable nds : nat.
Variable ncon : nat.
Variable tcon fe_con : arr.
Variable error_mean_con : R.
Variable nl : nat.
Variable nline : nat -> nat.
Variable tline fe_line : nat -> arr.
Variable error_mean_line : nat -> R.
Notation K := (pointers log_erfc type_tf flag icp ilp ncomp pm nds).
Notation psi := (fun j => response (shape_of type_tf) ncomp (stored (decode flag) pm (ilp nds j))).
Notation taud := (exp (pm (icp nds + 2)%nat)).
Notation sizes := (ncon :: map nline (seq 0 nl)).
Notation n := (list_sum sizes).
Notation data_time := (time tcon tline).
Notation noise := (noise_of fe_con error_mean_con fe_line error_mean_line pm (icp nds) (ilp nds)).
Notation scalar_version M := (set_covar_Pmat_data_line ncon tcon fe_con error_mean_con nl nline tline fe_line error_mean_line pm (icp nds) (ilp nds)
  (k_lc K) (k_ll K) (k_ll2 K) n M).
Notation array_version M B1 B2 := (set_covar_Pmat_data_line_array ncon tcon fe_con error_mean_con nl nline tline fe_line error_mean_line pm (icp nds) (ilp nds)
  (k_lc_array K) (k_ll_array K) (k_ll2_array K) n M B1 B2).

(** The noisy matrix PC' and the noise-free matrix PS' after the call: both
    symmetric, equal off the diagonal, differing by error^2/sigma^2 on it; nothing
    beyond the n*n entries is touched. *)
Theorem C36_symmetric_and_noise (PC PS PC' PS' : arr) : scalar_version (PC, PS) = (PC', PS') ->
  adds_noise sizes noise PS' PC' /\ symmetric n PS' /\ symmetric n PC'
  /\ unchanged_from (n * n) PS PS' /\ unchanged_from (n * n) PC PC'.
Proof.
  intros E. pose proof (shape_intro _ _ _ _ _ _ _ _ _ _ _ _ _ _ _ _ _ (scalar_frame ncon tcon fe_con error_mean_con nl nline tline fe_line error_mean_line pm (icp nds) (ilp nds)
    (k_lc K) (k_ll K) (k_ll2 K) (PC, PS))) as D. rewrite E in D. exact D.
Qed.
(** the version used in the likelihood, which fills buffers first, computes the
    same matrices *)
Theorem C36_array_version (M : mats) B1 B2 a b : (a < n)%nat -> (b < n)%nat ->
  snd (array_version M B1 B2) (a * n + b)%nat = snd (scalar_version M) (a * n + b)%nat
  /\ fst (array_version M B1 B2) (a * n + b)%nat = fst (scalar_version M) (a * n + b)%nat.
Proof.
  destruct (kernel_arrays log_erfc type_tf flag icp ilp ncomp pm nds) as (H5 & H6 & H7).
  apply (data_same ncon tcon fe_con error_mean_con nl nline tline fe_line error_mean_line pm (icp nds) (ilp nds) _ _ _ _ _ _ H5 H6 H7 M B1 B2 a b).
Qed.
Theorem C36_array_symmetric_and_noise (PC PS PC' PS' B1 B2 : arr) : array_version (PC, PS) B1 B2 = (PC', PS') ->
  adds_noise sizes noise PS' PC' /\ symmetric n PS' /\ symmetric n PC'
  /\ unchanged_from (n * n) PS PS' /\ unchanged_from (n * n) PC PC'.
Proof.
  intros E. destruct (kernel_arrays log_erfc type_tf flag icp ilp ncomp pm nds) as (H5 & H6 & H7).
  pose proof (shape_intro _ _ _ _ _ _ _ _ _ _ _ _ _ _ _ _ _ (array_frame ncon tcon fe_con error_mean_con nl nline tline fe_line error_mean_line pm (icp nds) (ilp nds)
    _ _ _ _ _ _ H5 H6 H7 (PC, PS) B1 B2)) as D. rewrite E in D. exact D.
Qed.

(** Each entry is the covariance of the two points, for parameters at which the
    closed forms of C31-C34 are exact *)
Hypothesis G : good log_erfc type_tf flag taud ncomp nl pm (ilp nds).
Theorem C36_entries (PC PS PC' PS' : arr) : scalar_version (PC, PS) = (PC', PS') ->
  holds_cov psi taud sizes sizes data_time data_time PS'.
Proof.
  intros E. destruct (kernel_facts log_erfc type_tf flag icp ilp ncomp pm nds nl G) as (H1 & H2 & H3 & H4).
  pose proof (cov_intro _ _ _ _ _ _ _ _ _ _ _ _ _ _ _ psi H1 H2 H3 H4 _ (proj2 (scalar_frame ncon tcon fe_con error_mean_con nl nline tline fe_line error_mean_line pm (icp nds) (ilp nds)
    (k_lc K) (k_ll K) (k_ll2 K) (PC, PS)))) as D. rewrite E in D. exact D.
Qed.
Theorem C36_array_entries (PC PS PC' PS' B1 B2 : arr) : array_version (PC, PS) B1 B2 = (PC', PS') ->
  holds_cov psi taud sizes sizes data_time data_time PS'.
Proof.
  intros E. destruct (kernel_facts log_erfc type_tf flag icp ilp ncomp pm nds nl G) as (H1 & H2 & H3 & H4).
  destruct (kernel_arrays log_erfc type_tf flag icp ilp ncomp pm nds) as (H5 & H6 & H7).
  pose proof (cov_intro _ _ _ _ _ _ _ _ _ _ _ _ _ _ _ psi H1 H2 H3 H4 _ (proj2 (array_frame ncon tcon fe_con error_mean_con nl nline tline fe_line error_mean_line pm (icp nds) (ilp nds)
    _ _ _ _ _ _ H5 H6 H7 (PC, PS) B1 B2))) as D. rewrite E in D. exact D.
Qed.
(** covariances of reconstruction points (rows) with data points (columns) *)
Variable nrec : nat -> nat.
Variable trec : arr.
Notation rsizes := (map nrec (seq 0 (S nl))).
Notation nr := (list_sum rsizes).
Notation rec_time := (rtime nrec trec).
Theorem C36_reconstruction_data_matrix U U' :
  set_covar_Umat_line ncon tcon nl nline tline pm (icp nds) (k_lc K) (k_ll K) (k_ll2 K) n nrec trec U = U' ->
  holds_cov psi taud rsizes sizes rec_time data_time U' /\ unchanged_from (nr * n) U U'.
Proof.
  intros <-. destruct (kernel_facts log_erfc type_tf flag icp ilp ncomp pm nds nl G) as (H1 & H2 & H3 & H4).
  apply (cross ncon tcon nl nline tline pm (icp nds) _ _ _ psi H1 H2 H3).
Qed.
Theorem C36_reconstruction_matrix A A' :
  set_covar_Amat_line nl pm (icp nds) (k_lc K) (k_ll K) (k_ll2 K) nrec trec A = A' ->
  holds_cov psi taud rsizes rsizes rec_time rec_time A' /\ symmetric nr A' /\ unchanged_from (nr * nr) A A'.
Proof.
  intros <-. destruct (kernel_facts log_erfc type_tf flag icp ilp ncomp pm nds nl G) as (H1 & H2 & H3 & H4).
  apply (recon nl pm (icp nds) _ _ _ psi H1 H2 H3 H4).
Qed.
End Theorems.

(** ** A concrete case: three continuum points, an empty line and a line with two
    points; position 4 is the second point of the second line (curve 2) *)
Example C36_layout : locate [3; 0; 2]%nat 4 = Some (2, 1)%nat /\ list_sum [3; 0; 2]%nat = 5%nat.
Proof. split; reflexivity. Qed.
(** the parameters of C35_case satisfy the condition for exponential responses of
    two lines stored from slots 3 and 7, damping time 1 *)
Example C36_case : good (fun _ => 0) 3 false (exp (pm_two 2%nat)) 1 2 pm_two (fun j => 3 + 4 * j)%nat.
Proof.
  intros j J. replace (exp (pm_two 2%nat)) with 1 by (cbn; rewrite exp_0; reflexivity).
  destruct j as [|[|j]]; [apply C35_case|apply C35_case|lia].
Qed.

Print Assumptions C36_symmetric_and_noise.
Print Assumptions C36_array_version.
Print Assumptions C36_array_symmetric_and_noise.
Print Assumptions C36_entries.
Print Assumptions C36_array_entries.
Print Assumptions C36_reconstruction_data_matrix.
Print Assumptions C36_reconstruction_matrix.
