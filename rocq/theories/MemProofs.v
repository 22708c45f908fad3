(** Proofs about the blocks of memory. *)
From Coq Require Import NArith ZArith List String Bool Lia.
From Verif Require Import CPrelude MemModel MemSpec.
Import ListNotations.
Local Open Scope N_scope.
Local Open Scope list_scope.

(** * Sets of element numbers *)
Definition bnd (s : N -> Prop) (E : N) : Prop := forall k, s k -> k < E.

Lemma bnd_upto n E : n <= E -> bnd (upto n) E.
Proof. unfold bnd, upto. intros; lia. Qed.

Lemma bnd_from a n E : a + n <= E -> bnd (from a n) E.
Proof. intros H k (i & L & ->). lia. Qed.

Lemma bnd_box w r0 m c0 c R E : r0 + m <= R -> c0 + c <= w -> R * w <= E -> bnd (box w r0 m c0 c) E.
Proof.
  intros HR HW HE k (i & j & Li & Lj & ->).
  assert (r0 + i + 1 <= R) by lia.
  assert ((r0 + i + 1) * w <= R * w) by (apply N.mul_le_mono_r; lia). lia.
Qed.

Lemma bnd_mat m n E : m * n <= E -> bnd (mat m n) E.
Proof. intros H. apply (bnd_box _ _ _ _ _ m); lia. Qed.

(** * Tables: the arrays of a routine with their lengths *)
Definition table := list (ptr * N).
Definition fits (T : table) (a : access) : Prop := exists E, In (fst a, E) T /\ bnd (snd a) E.

Definition clear (e f : ptr * N) : Prop :=
  in_use_together (fst e) (fst f) -> bk (fst e) = bk (fst f) ->
  off (fst e) + es (fst e) * snd e <= off (fst f) \/ off (fst f) + es (fst f) * snd f <= off (fst e).

Lemma clear_sym e f : clear e f -> clear f e.
Proof.
  unfold clear, in_use_together. intros H (N1 & P) B.
  assert (Q : off (fst e) + es (fst e) * snd e <= off (fst f) \/ off (fst f) + es (fst f) * snd f <= off (fst e)).
  { apply H; [split; [congruence|intuition congruence]|congruence]. }
  destruct Q; auto.
Qed.

Lemma past_le p k E : k < E -> past_byte p k <= off p + es p * E.
Proof.
  intros H. unfold past_byte.
  assert (es p * (k + 1) <= es p * E) by (apply N.mul_le_mono_l; lia). lia.
Qed.

Theorem table_inside T h l :
  List.Forall (fits T) l -> List.Forall (fun e => off (fst e) + es (fst e) * snd e <= h (bk (fst e))) T -> all_inside h l.
Proof.
  intros F B a Ia k Sk. rewrite Forall_forall in F, B. destruct (F a Ia) as (E & HT & HB).
  specialize (B _ HT). cbn in B. pose proof (past_le (fst a) k E (HB k Sk)). lia.
Qed.

Theorem table_apart T l :
  List.Forall (fits T) l -> (forall e f, In e T -> In f T -> clear e f) -> all_apart l.
Proof.
  intros F C a b Ia Ib U B k m Sk Sm. rewrite Forall_forall in F.
  destruct (F a Ia) as (E & HT & HB). destruct (F b Ib) as (E' & HT' & HB').
  pose proof (past_le (fst a) k E (HB k Sk)). pose proof (past_le (fst b) m E' (HB' m Sm)).
  destruct (C _ _ HT HT' U B) as [H1|H1]; cbn in H1; unfold first_byte; [left|right]; lia.
Qed.

(** Tables in the order of the addresses. *)
Lemma clear_pairs T : ForallOrdPairs clear T -> forall e f, In e T -> In f T -> clear e f.
Proof.
  intros H e f He Hf. destruct (ForallOrdPairs_In H e f He Hf) as [->|[R|R]]; auto using clear_sym.
  intros (X & _). congruence.
Qed.

(** * The loop that inverts by partition *)
Definition pass_tbl (Ai : ptr) (nt k ni nq : N) : table :=
  let ANi := advk "ANi" k Ai (nt * nt) in
  let QNi := advk "QNi" k ANi (ni * ni) in
  let SNi := advk "SNi" k QNi (ni * nq) in
  let pwork := advk "pwork" k SNi (nq * nq) in
  [(ANi, ni * ni); (QNi, ni * nq); (SNi, nq * nq); (pwork, ni * nq)].

Fixpoint iter_tbl (Ai : ptr) (nt k ni : N) (rest : list N) : table :=
  match rest with
  | [] => []
  | nq :: r => pass_tbl Ai nt k ni nq ++ iter_tbl Ai nt (k + 1) (ni + nq) r
  end.

Ltac fa := repeat match goal with
  | |- List.Forall _ (_ ++ _) => apply Forall_app; split
  | |- List.Forall _ (_ :: _) => apply Forall_cons
  | |- List.Forall _ [] => apply Forall_nil
  end.

Ltac fop := repeat match goal with
  | |- ForallOrdPairs _ (_ :: _) => apply FOP_cons
  | |- ForallOrdPairs _ [] => apply FOP_nil
  | |- List.Forall _ (_ :: _) => apply Forall_cons
  | |- List.Forall _ [] => apply Forall_nil
  end.

Lemma fits_in T p s E : In (p, E) T -> bnd s E -> fits T (p, s).
Proof. intros H B. exists E. auto. Qed.

Section Iter.
Variables (T : table) (A Ai narr ipv : ptr) (EA EAi En Ei nt : N).
Hypotheses (HA : In (A, EA) T) (LA : nt * nt <= EA).
Hypotheses (HAi : In (Ai, EAi) T) (LAi : nt * nt <= EAi).
Hypotheses (Hn : In (narr, En) T) (Hi : In (ipv, Ei) T) (Li : nt <= Ei).

Lemma pass_fits semi k ni nq last :
  (match semi with
   | Some (W, D, phi) => k = 1 -> (exists E, In (W, E) T /\ ni <= E) /\ (exists E, In (D, E) T /\ ni <= E) /\ (exists E, In (phi, E) T /\ ni <= E)
   | None => True end) ->
  1 <= ni -> ni + nq <= nt -> k + 1 <= En ->
  incl (pass_tbl Ai nt k ni nq) T ->
  List.Forall (fits T) (iter_pass semi A Ai narr ipv nt k ni nq last).
Proof.
  intros HS N1 NT KE IN.
  set (ANi := advk "ANi" k Ai (nt * nt)). set (QNi := advk "QNi" k ANi (ni * ni)).
  set (SNi := advk "SNi" k QNi (ni * nq)). set (pw := advk "pwork" k SNi (nq * nq)).
  assert (I1 : In (ANi, ni * ni) T) by (apply IN; left; reflexivity).
  assert (I2 : In (QNi, ni * nq) T) by (apply IN; right; left; reflexivity).
  assert (I3 : In (SNi, nq * nq) T) by (apply IN; right; right; left; reflexivity).
  assert (I4 : In (pw, ni * nq) T) by (apply IN; right; right; right; left; reflexivity).
  assert (X0 : (ni + nq) * nt <= nt * nt) by (apply N.mul_le_mono_r; lia).
  assert (X1 : (ni + nq) * (ni + nq) <= nt * nt) by (apply N.mul_le_mono; lia).
  assert (X2 : 1 * nq <= ni * nq) by (apply N.mul_le_mono_r; lia).
  set (out := if last then A else Ai).
  assert (HO : exists EO, In (out, EO) T /\ nt * nt <= EO) by (destruct last; unfold out; eauto).
  destruct HO as (EO & HO & LO).
  assert (FF : forall Pinv, Pinv = Ai -> List.Forall (fits T) (part_fast Pinv SNi QNi ni nq ANi pw ipv)).
  { intros ? ->. unfold part_fast, mul_MN, mul_TA, mul_TB, inv_. fa;
      (first [ apply (fits_in _ _ _ _ I1) | apply (fits_in _ _ _ _ I2) | apply (fits_in _ _ _ _ I3)
             | apply (fits_in _ _ _ _ I4) | apply (fits_in _ _ _ _ HAi) | apply (fits_in _ _ _ _ Hi) ];
       first [apply bnd_mat; lia | apply bnd_upto; lia]). }
  assert (SS : match semi with Some (W, D, phi) => k = 1 -> List.Forall (fits T) (part_semi Ai W D phi SNi QNi ni nq ANi pw ipv) | None => True end).
  { destruct semi as [[[W D] phi]|]; auto. intros K1. destruct (HS K1) as ((e1 & W1 & W2) & (e2 & D1 & D2) & (e3 & P1 & P2)).
    unfold part_semi, semi_mat, mul_MN, mul_TA, mul_TB, inv_. fa;
      (first [ apply (fits_in _ _ _ _ I1) | apply (fits_in _ _ _ _ I2) | apply (fits_in _ _ _ _ I3)
             | apply (fits_in _ _ _ _ I4) | apply (fits_in _ _ _ _ HAi) | apply (fits_in _ _ _ _ Hi)
             | apply (fits_in _ _ _ _ W1) | apply (fits_in _ _ _ _ D1) | apply (fits_in _ _ _ _ P1) ];
       first [apply bnd_mat; lia | apply bnd_upto; lia | apply (bnd_box _ _ _ _ _ 1); lia]). }
  unfold iter_pass. fold ANi. fold QNi. fold SNi. fold pw. fold out. fa.
  - apply (fits_in _ _ _ _ Hn). apply bnd_from; lia.
  - apply (fits_in _ _ _ _ I2). apply bnd_mat; lia.
  - apply (fits_in _ _ _ _ HA). apply (bnd_box _ _ _ _ _ (ni + nq)); lia.
  - apply (fits_in _ _ _ _ I3). apply bnd_mat; lia.
  - apply (fits_in _ _ _ _ HA). apply (bnd_box _ _ _ _ _ (ni + nq)); lia.
  - destruct semi as [[[W D] phi]|]; [|apply FF; auto].
    destruct (k =? 1) eqn:K; [|apply FF; auto]. apply SS. apply N.eqb_eq; auto.
  - apply (fits_in _ _ _ _ HO). apply (bnd_box _ _ _ _ _ (ni + nq)); lia.
  - apply (fits_in _ _ _ _ I1). apply bnd_mat; lia.
  - apply (fits_in _ _ _ _ HO). apply (bnd_box _ _ _ _ _ (ni + nq)); lia.
  - apply (fits_in _ _ _ _ HO). apply (bnd_box _ _ _ _ _ (ni + nq)); lia.
  - apply (fits_in _ _ _ _ I2). apply bnd_mat; lia.
  - apply (fits_in _ _ _ _ HO). apply (bnd_box _ _ _ _ _ (ni + nq)); lia.
  - apply (fits_in _ _ _ _ I3). apply bnd_mat; lia.
Qed.

Lemma passes_fits semi : forall rest k ni,
  (match semi with
   | Some (W, D, phi) => k = 1 -> (exists E, In (W, E) T /\ ni <= E) /\ (exists E, In (D, E) T /\ ni <= E) /\ (exists E, In (phi, E) T /\ ni <= E)
   | None => True end) ->
  1 <= k -> 1 <= ni -> ni + sumN rest <= nt -> k + N.of_nat (List.length rest) <= En ->
  incl (iter_tbl Ai nt k ni rest) T ->
  List.Forall (fits T) (iter_passes semi A Ai narr ipv nt k ni rest).
Proof.
  induction rest as [|nq r IH]; intros k ni HS K1 N1 NT KE IN; cbn [iter_passes]; [constructor|].
  cbn [iter_tbl] in IN. cbn [sumN fold_right] in NT. change (fold_right N.add 0 r) with (sumN r) in NT.
  cbn [List.length] in KE.
  apply Forall_app. split.
  - apply pass_fits; auto; try lia. intros x Hx. apply IN, in_or_app. auto.
  - apply IH; try lia.
    + destruct semi as [[[W D] phi]|]; auto. intros; lia.
    + intros x Hx. apply IN, in_or_app. auto.
Qed.
End Iter.

Lemma pass_tbl_range Ai nt k ni nq e :
  es Ai = 8 -> bk Ai = Binv -> ni + nq <= nt -> In e (pass_tbl Ai nt k ni nq) ->
  bk (fst e) = Binv /\ snd (nm (fst e)) = k /\
  off Ai + 8 * (nt * nt) <= off (fst e) /\ off (fst e) + es (fst e) * snd e <= off Ai + 8 * (2 * (nt * nt)).
Proof.
  intros ES BK L H.
  assert (X1 : (ni + nq) * (ni + nq) <= nt * nt) by (apply N.mul_le_mono; lia).
  unfold pass_tbl in H; cbn [In] in H.
  destruct H as [<-|[<-|[<-|[<-|[]]]]]; cbn [advk off es bk nm fst snd]; rewrite ?ES, ?BK; repeat split; lia.
Qed.

Lemma iter_tbl_range Ai nt : es Ai = 8 -> bk Ai = Binv -> forall rest k ni, ni + sumN rest <= nt -> forall e, In e (iter_tbl Ai nt k ni rest) ->
  bk (fst e) = Binv /\ k <= snd (nm (fst e)) /\
  off Ai + 8 * (nt * nt) <= off (fst e) /\ off (fst e) + es (fst e) * snd e <= off Ai + 8 * (2 * (nt * nt)).
Proof.
  intros ES BK. induction rest as [|nq r IH]; intros k ni L e H; cbn in H; [easy|].
  cbn [sumN fold_right] in L. change (fold_right N.add 0 r) with (sumN r) in L.
  change (pass_tbl Ai nt k ni nq ++ iter_tbl Ai nt (k + 1) (ni + nq) r) with (iter_tbl Ai nt k ni (nq :: r)) in H.
  apply (in_app_or (pass_tbl Ai nt k ni nq)) in H. destruct H as [H|H].
  - destruct (pass_tbl_range Ai nt k ni nq e ES BK ltac:(lia) H) as (a & b & c & d). repeat split; auto; lia.
  - destruct (IH (k + 1) (ni + nq) ltac:(lia) e H) as (a & b & c & d). repeat split; auto; lia.
Qed.

Lemma iter_tbl_clear Ai nt : es Ai = 8 -> bk Ai = Binv -> forall rest k ni, 1 <= k -> ni + sumN rest <= nt ->
  ForallOrdPairs clear (iter_tbl Ai nt k ni rest).
Proof.
  intros ES BK. induction rest as [|nq r IH]; intros k ni K1 L; [constructor|].
  cbn [sumN fold_right] in L. change (fold_right N.add 0 r) with (sumN r) in L.
  cbn [iter_tbl].
  assert (P : forall e f, In e (pass_tbl Ai nt k ni nq) -> In f (iter_tbl Ai nt (k + 1) (ni + nq) r) -> clear e f).
  { intros e f He Hf (_ & U) _.
    destruct (pass_tbl_range Ai nt k ni nq e ES BK ltac:(lia) He) as (_ & b & _).
    destruct (iter_tbl_range Ai nt ES BK r (k + 1) (ni + nq) ltac:(lia) f Hf) as (_ & b' & _). lia. }
  assert (Q : ForallOrdPairs clear (pass_tbl Ai nt k ni nq)).
  { unfold pass_tbl. fop; intros _ _; left; cbn [advk off es bk nm fst snd]; rewrite ?ES; lia. }
  specialize (IH (k + 1) (ni + nq) ltac:(lia) ltac:(lia)).
  revert P Q. generalize (pass_tbl Ai nt k ni nq) as l. induction l as [|x l IHl]; intros P Q; cbn; auto.
  inversion Q; subst. constructor.
  - apply Forall_app. split; auto. apply Forall_forall. intros f Hf. apply P; auto. left; auto.
  - apply IHl; auto. intros e f He Hf. apply P; auto. right; auto.
Qed.

(** A table in three parts: the arrays in the workspace in order, single arrays
    in blocks of their own, and those of the loop. *)
Lemma ordpairs_app {X} (R : X -> X -> Prop) l1 l2 :
  ForallOrdPairs R l1 -> ForallOrdPairs R l2 -> (forall x y, In x l1 -> In y l2 -> R x y) -> ForallOrdPairs R (l1 ++ l2).
Proof.
  intros H1 H2 H. induction H1 as [|x l F O IH]; cbn; auto. constructor.
  - apply Forall_app. split; auto. apply Forall_forall. intros y Hy. apply H; cbn; auto.
  - apply IH. intros a b Ha Hb. apply H; cbn; auto.
Qed.

(** * Maximum sizes *)
Definition le_max (a b : maxima) : Prop :=
  ncon_max a <= ncon_max b /\ nline_max a <= nline_max b /\ nall_max a <= nall_max b /\
  nlset_max a <= nlset_max b /\ nrec_max a <= nrec_max b.

Lemma le_max_refl a : le_max a a.
Proof. unfold le_max; lia. Qed.

Lemma le_max_trans a b c : le_max a b -> le_max b c -> le_max a c.
Proof. unfold le_max; lia. Qed.

Lemma fold_line l : forall x, x <= fold_left (fun x n => if x <? n then n else x) l x /\
  (forall n, In n l -> n <= fold_left (fun x n => if x <? n then n else x) l x).
Proof.
  induction l as [|a l IH]; intros x; cbn [fold_left].
  - split; [lia|intros n []].
  - destruct (IH (if x <? a then a else x)) as [H1 H2].
    assert (x <= (if x <? a then a else x) /\ a <= (if x <? a then a else x)) by (destruct (N.ltb_spec x a); lia).
    split; [lia|]. intros n [<-|I]; [lia|auto].
Qed.

Lemma fold_line_sum l : forall x b, x <= b -> sumN l <= b -> fold_left (fun x n => if x <? n then n else x) l x <= b.
Proof.
  induction l as [|a l IH]; intros x b H1 H2; cbn [fold_left]; auto.
  cbn [sumN fold_right] in H2. change (fold_right N.add 0 l) with (sumN l) in H2.
  apply IH; [destruct (N.ltb_spec x a); lia|lia].
Qed.

Record holds (m : maxima) (d : curves) : Prop :=
  { h_con : con d <= ncon_max m; h_line : forall n, In n (lines d) -> n <= nline_max m;
    h_all : nall d <= nall_max m; h_set : nlset d <= nlset_max m;
    h_rec : con d * (1 + nlset d) <= nrec_max m;
    h_rec_line : forall n, In n (lines d) -> n * (1 + nlset d) <= nrec_max m }.

Lemma holds_le a b d : le_max a b -> holds a d -> holds b d.
Proof.
  unfold le_max. intros (A1 & A2 & A3 & A4 & A5) [B1 B2 B3 B4 B5 B6]. split; try lia.
  - intros n I. specialize (B2 n I). lia.
  - intros n I. specialize (B6 n I). lia.
Qed.

Lemma step_le m d : le_max m (max_step m d).
Proof.
  unfold le_max, max_step; cbn [ncon_max nline_max nall_max nlset_max nrec_max].
  destruct (fold_line (lines d) (nline_max m)) as [H _].
  destruct (N.ltb_spec (ncon_max m) (con d)), (N.ltb_spec (nall_max m) (nall d)), (N.ltb_spec (nlset_max m) (nlset d)); lia.
Qed.

Lemma step_holds m d : holds (max_step m d) d.
Proof.
  unfold max_step. destruct (fold_line (lines d) (nline_max m)) as [_ H].
  set (nl := fold_left _ (lines d) (nline_max m)) in *.
  set (nc := if ncon_max m <? con d then con d else ncon_max m).
  assert (C : con d <= nc) by (unfold nc; destruct (N.ltb_spec (ncon_max m) (con d)); lia).
  assert (Q : forall x, x <= N.max nc nl -> x * (1 + nlset d) <= N.max nc nl * (1 + nlset d)) by (intros; apply N.mul_le_mono_r; auto).
  split; cbn [ncon_max nline_max nall_max nlset_max nrec_max].
  - auto.
  - auto.
  - destruct (N.ltb_spec (nall_max m) (nall d)); lia.
  - destruct (N.ltb_spec (nlset_max m) (nlset d)); lia.
  - specialize (Q (con d) ltac:(lia)). lia.
  - intros n I. specialize (H n I). specialize (Q n ltac:(lia)). lia.
Qed.

Lemma fold_max_le l : forall m, le_max m (fold_left max_step l m).
Proof.
  induction l as [|d l IH]; intros m; cbn [fold_left]; [apply le_max_refl|].
  eapply le_max_trans; [apply step_le|apply IH].
Qed.

Lemma fold_max_holds l : forall m d, In d l -> holds (fold_left max_step l m) d.
Proof.
  induction l as [|x l IH]; intros m d H; [easy|]. cbn [fold_left]. destruct H as [<-|H]; [|apply IH; auto].
  eapply holds_le; [apply fold_max_le|apply step_holds].
Qed.

Record ordered (m : maxima) : Prop :=
  { o_con : ncon_max m <= nall_max m; o_line : nline_max m <= nall_max m; o_rec : ncon_max m <= nrec_max m;
    o_line_rec : nline_max m <= nrec_max m }.

Lemma step_ordered m d : ordered m -> ordered (max_step m d).
Proof.
  intros [H1 H2 H3 H4]. unfold max_step.
  assert (L : fold_left (fun x n => if x <? n then n else x) (lines d) (nline_max m) <= N.max (nall_max m) (nall d)).
  { apply fold_line_sum; unfold nall; lia. }
  set (nl := fold_left _ (lines d) (nline_max m)) in *.
  set (nc := if ncon_max m <? con d then con d else ncon_max m).
  assert (Q : N.max nc nl * 1 <= N.max nc nl * (1 + nlset d)) by (apply N.mul_le_mono_l; lia).
  assert (con d <= nall d) by (unfold nall; lia).
  split; cbn [ncon_max nline_max nall_max nlset_max nrec_max];
    try (destruct (N.ltb_spec (nall_max m) (nall d)); subst nc; destruct (N.ltb_spec (ncon_max m) (con d)); lia); lia.
Qed.

Lemma fold_ordered l : forall m, ordered m -> ordered (fold_left max_step l m).
Proof. induction l as [|d l IH]; intros m H; cbn [fold_left]; auto using step_ordered. Qed.

(** The facts used about a set of curves. *)
Record sizes (M : maxima) (nq : N) (d : curves) : Prop :=
  { s_con : con d <= ncon_max M; s_line : forall n, In n (lines d) -> n <= nline_max M;
    s_all : nall d <= nall_max M; s_set : nlset d <= nlset_max M;
    s_rec : con d * 3 * (1 + nlset d) <= nrec_max M;
    s_rec_line : forall n, In n (lines d) -> n * 3 * (1 + nlset d) <= nrec_max M;
    s_cmax : ncon_max M <= nall_max M; s_lmax : nline_max M <= nall_max M;
    s_crec : ncon_max M * 3 <= nrec_max M; s_lrec : nline_max M * 3 <= nrec_max M }.

Theorem sizes_ok data nq d : In d data -> sizes (maxima_of data) nq d.
Proof.
  intros H. unfold maxima_of, read_max.
  pose proof (fold_max_holds data max0 d H) as [A1 A2 A3 A4 A5 A6].
  assert (O : ordered (fold_left max_step data max0)) by (apply fold_ordered; split; cbn; lia).
  destruct O as [O1 O2 O3 O4].
  split; unfold scale_max; cbn [ncon_max nline_max nall_max nlset_max nrec_max]; unfold nscale; auto; try lia.
  intros n I. specialize (A6 n I). lia.
Qed.

(** * What allocation gives *)
Definition heap_of (M : maxima) (nq : N) : heap := fun b =>
  match b with
  | BPN | BPS | BPC | BIPC | BT1 | BT2 => 8 * (nall_max M * nall_max M)
  | BUS | BUST => 8 * (nall_max M * nrec_max M)
  | BAS => 8 * (nrec_max M * nrec_max M)
  | Bwork => 8 * n_work M nq
  | Bipiv => 4 * n_ipiv M
  | Binv => 8 * (3 * nall_max M * nall_max M)
  | Bslc | Bslcb => 8 * (ncon_max M * nline_max M)
  | Bsll | Bsllb => 8 * (nline_max M * nline_max M)
  | Byqall => 8 * (nq * (1 + nlset_max M))
  | _ => 0
  end.

Lemma int_ok n m : int_ n = Ok m -> m = n /\ n <= int_max.
Proof. unfold int_. destruct (N.leb_spec n int_max); intros E; inversion E; split; [auto|subst; auto]. Qed.

Lemma int_le n : n <= int_max -> int_ n = Ok n.
Proof. unfold int_. intros H. apply N.leb_le in H. now rewrite H. Qed.

Theorem allocate_ok data nq h : allocate data nq = Ok h ->
  h = heap_of (maxima_of data) nq /\
  nrec_max (maxima_of data) <= int_max /\
  nall_max (maxima_of data) * nall_max (maxima_of data) <= int_max /\
  nall_max (maxima_of data) * nrec_max (maxima_of data) <= int_max /\
  nrec_max (maxima_of data) * nrec_max (maxima_of data) <= int_max /\
  n_work (maxima_of data) nq <= int_max.
Proof.
  unfold allocate. set (M := maxima_of data).
  destruct (int_ (nrec_max M)) as [x0| | |] eqn:E0; cbn [bind]; try discriminate. apply int_ok in E0.
  destruct (int_ (nall_max M * nall_max M)) as [x1| | |] eqn:E1; cbn [bind]; try discriminate. apply int_ok in E1.
  destruct (int_ (nall_max M * nrec_max M)) as [x2| | |] eqn:E2; cbn [bind]; try discriminate. apply int_ok in E2.
  destruct (int_ (nrec_max M * nrec_max M)) as [x3| | |] eqn:E3; cbn [bind]; try discriminate. apply int_ok in E3.
  destruct (int_ (n_work M nq)) as [x4| | |] eqn:E4; cbn [bind]; try discriminate. apply int_ok in E4.
  destruct (int_ (3 * nall_max M * nall_max M)) as [x5| | |] eqn:E5; cbn [bind]; try discriminate. apply int_ok in E5.
  destruct (int_ (ncon_max M * nline_max M)) as [x6| | |] eqn:E6; cbn [bind]; try discriminate. apply int_ok in E6.
  destruct (int_ (nline_max M * nline_max M)) as [x7| | |] eqn:E7; cbn [bind]; try discriminate. apply int_ok in E7.
  destruct E0 as [-> ?], E1 as [-> ?], E2 as [-> ?], E3 as [-> ?], E4 as [-> ?], E5 as [-> ?], E6 as [-> ?], E7 as [-> ?].
  intros E; inversion E. repeat split; auto.
Qed.

(** * Tables of the routines *)
Fixpoint chained (lo : N) (T : table) (hi : N) : Prop :=
  match T with
  | [] => lo <= hi
  | (p, E) :: r => bk p = Bwork /\ lo <= off p /\ chained (off p + es p * E) r hi
  end.

Lemma chained_all T : forall lo hi, chained lo T hi ->
  (forall e, In e T -> bk (fst e) = Bwork /\ lo <= off (fst e) /\ off (fst e) + es (fst e) * snd e <= hi) /\
  ForallOrdPairs clear T.
Proof.
  induction T as [|[p E] T IH]; intros lo hi H; cbn [chained] in H.
  - split; [intros e []|constructor].
  - destruct H as (B & L & H). destruct (IH _ _ H) as [H1 H2].
    assert (LH : off p + es p * E <= hi).
    { clear - H. revert H. generalize (off p + es p * E) as lo. induction T as [|[p' E'] T IH]; intros lo H; cbn [chained] in H; [auto|].
      destruct H as (_ & L & H). specialize (IH _ H). lia. }
    split.
    + intros e [<-|I]; cbn [fst snd]; [repeat split; auto|]. destruct (H1 e I) as (X & Y & Z). repeat split; auto; lia.
    + apply FOP_cons; auto. apply Forall_forall. intros e I _ _. left. cbn [fst snd]. apply (H1 e I).
Qed.

Definition Ai0 : ptr := base "Ai" Binv.

(** Arrays with a block of their own. *)
Definition singles (M : maxima) (s1 s2 s3 s4 sf sy nt : N) : table :=
  [(PCmat, nall_max M * nall_max M); (PSmat, nall_max M * nall_max M); (PNmat, nall_max M * nall_max M);
   (IPCmat, nall_max M * nall_max M); (USmat, nall_max M * nrec_max M); (USmatT, nall_max M * nrec_max M);
   (ASmat, nrec_max M * nrec_max M); (Smat_lc, ncon_max M * nline_max M); (Smat_ll, nline_max M * nline_max M);
   (Smat_lc_buf, ncon_max M * nline_max M); (Smat_ll_buf, nline_max M * nline_max M);
   (ipiv, n_ipiv M); (PEmat1, s1); (PEmat2, s2); (PEmat3, s3); (PEmat4, s4);
   (fall, sf); (feall, sf); (yqall, sy); (Ai0, nt * nt)].

Definition full (WT : table) (M : maxima) (s1 s2 s3 s4 sf sy nt n0 : N) (rest : list N) : table :=
  WT ++ singles M s1 s2 s3 s4 sf sy nt ++ iter_tbl Ai0 nt 1 n0 rest.

Lemma full_clear WT M s1 s2 s3 s4 sf sy nt n0 rest hi :
  chained 0 WT hi -> n0 + sumN rest <= nt ->
  forall e f, In e (full WT M s1 s2 s3 s4 sf sy nt n0 rest) -> In f (full WT M s1 s2 s3 s4 sf sy nt n0 rest) -> clear e f.
Proof.
  intros C L. apply clear_pairs. unfold full. destruct (chained_all _ _ _ C) as [C1 C2].
  assert (S : forall e, In e (singles M s1 s2 s3 s4 sf sy nt) -> bk (fst e) <> Bwork /\ (bk (fst e) = Binv -> e = (Ai0, nt * nt))).
  { unfold singles. intros e H. repeat (destruct H as [<-|H]; [split; [discriminate|first [discriminate|reflexivity]]|]). destruct H. }
  apply ordpairs_app; auto.
  - apply ordpairs_app.
    + unfold singles. fop; intros _ X; cbn in X; discriminate.
    + apply iter_tbl_clear; auto; lia.
    + intros x y Hx Hy _ B. destruct (S x Hx) as [_ S2].
      destruct (iter_tbl_range Ai0 nt eq_refl eq_refl rest 1 n0 L y Hy) as (Y1 & _ & Y2 & _).
      rewrite S2 by congruence. left. cbn [fst snd Ai0 base off es] in *. lia.
  - intros x y Hx Hy _ B. exfalso. destruct (C1 x Hx) as [X _]. apply in_app_or in Hy. destruct Hy as [Hy|Hy].
    + destruct (S y Hy) as [Y _]. congruence.
    + destruct (iter_tbl_range Ai0 nt eq_refl eq_refl rest 1 n0 L y Hy) as (Y1 & _). congruence.
Qed.

Lemma full_bound WT M nq h s1 s2 s3 s4 sf sy nt n0 rest :
  chained 0 WT (8 * n_work M nq) -> n0 + sumN rest <= nt -> nt <= nall_max M ->
  (forall b, match b with Bpe1 => 8 * s1 <= h b | Bpe2 => 8 * s2 <= h b | Bpe3 => 8 * s3 <= h b | Bpe4 => 8 * s4 <= h b
             | Bfall | Bfeall => 8 * sf <= h b | Byqall => 8 * sy <= h b | _ => heap_of M nq b <= h b end) ->
  List.Forall (fun e => off (fst e) + es (fst e) * snd e <= h (bk (fst e))) (full WT M s1 s2 s3 s4 sf sy nt n0 rest).
Proof.
  intros C L NT H. destruct (chained_all _ _ _ C) as [C1 _].
  assert (X : nt * nt <= nall_max M * nall_max M) by (apply N.mul_le_mono; lia).
  unfold full. apply Forall_app. split; [|apply Forall_app; split].
  - apply Forall_forall. intros e I. destruct (C1 e I) as (B & _ & Y). rewrite B. specialize (H Bwork). cbv beta iota in H. cbn [heap_of] in H. lia.
  - unfold singles.
    fop; cbn [fst snd off es bk base ibase PCmat PSmat PNmat IPCmat USmat USmatT ASmat Smat_lc Smat_ll Smat_lc_buf Smat_ll_buf ipiv PEmat1 PEmat2 PEmat3 PEmat4 fall feall yqall Ai0];
      match goal with |- _ <= h ?b => specialize (H b); cbv beta iota in H; cbn [heap_of] in H; lia end.
  - apply Forall_forall. intros e I. destruct (iter_tbl_range Ai0 nt eq_refl eq_refl rest 1 n0 L e I) as (B & _ & _ & Y).
    rewrite B. specialize (H Binv). cbv beta iota in H. cbn [heap_of] in H. cbn [off Ai0 base] in Y. lia.
Qed.

(** * Pieces of routines *)
Lemma segs_in l : forall p0 j0 p n j, In (p, n, j) (segs p0 j0 l) ->
  p0 <= p /\ p + n <= p0 + sumN l /\ j0 <= j /\ j + 1 <= j0 + N.of_nat (List.length l).
Proof.
  induction l as [|a l IH]; intros p0 j0 p n j H; cbn [segs In] in H; [easy|].
  cbn [sumN fold_right List.length]. change (fold_right N.add 0 l) with (sumN l). destruct H as [H|H].
  - inversion H; subst. lia.
  - apply IH in H. lia.
Qed.

Lemma pairs_fits T p w r c E : In (p, E) T -> sumN r * w <= E -> sumN c <= w ->
  List.Forall (fits T) (pairs p w (segs 0 0 r) (segs 0 0 c)).
Proof.
  intros I R C. apply Forall_forall. intros a H. unfold pairs in H. apply in_flat_map in H.
  destruct H as ([[r0 m] j] & H1 & H). apply in_map_iff in H. destruct H as ([[c0 n] j'] & <- & H2).
  apply segs_in in H1, H2. eapply fits_in; [exact I|]. apply (bnd_box _ _ _ _ _ (sumN r)); lia.
Qed.

Lemma trend_con_fits T L q nq n E : In (L, E) T -> 1 <= nq -> nq <= q -> n * q <= E ->
  List.Forall (fits T) (trend_con L q nq n).
Proof.
  intros I H1 H2 H3. unfold trend_con. fa; (eapply fits_in; [exact I|]); apply (bnd_box _ _ _ _ _ n); lia.
Qed.

Lemma trend_lines_fits T L q nq c0 p0 l E : In (L, E) T -> 1 <= nq -> c0 + N.of_nat (List.length l) * nq <= q ->
  (p0 + sumN l) * q <= E -> List.Forall (fits T) (trend_lines L q nq c0 (segs p0 0 l)).
Proof.
  intros I H1 H2 H3. apply Forall_forall. intros a H. unfold trend_lines in H. apply in_flat_map in H.
  destruct H as ([[p n] j] & H4 & H). apply segs_in in H4.
  assert (J : (j + 1) * nq <= N.of_nat (List.length l) * nq) by (apply N.mul_le_mono_r; lia).
  destruct H as [<-|[<-|[<-|[]]]]; (eapply fits_in; [exact I|]); apply (bnd_box _ _ _ _ _ (p0 + sumN l)); lia.
Qed.

Lemma slc_fits T p c l E : In (p, E) T -> (forall n, In n l -> c * n <= E) -> List.Forall (fits T) (slc p c l).
Proof.
  intros I H. apply Forall_forall. intros a Ha. unfold slc in Ha. apply in_map_iff in Ha. destruct Ha as (n & <- & Hn).
  eapply fits_in; [exact I|]. apply bnd_mat. auto.
Qed.

Lemma sll_fits T p l E : In (p, E) T -> (forall n m, In n l -> In m l -> n * m <= E) -> List.Forall (fits T) (sll p l).
Proof.
  intros I. induction l as [|n r IH]; intros H; cbn [sll]; fa.
  - eapply fits_in; [exact I|]. apply bnd_mat. apply H; left; auto.
  - apply Forall_forall. intros a Ha. apply in_map_iff in Ha. destruct Ha as (m & <- & Hm).
    eapply fits_in; [exact I|]. apply bnd_mat. apply H; [left|right]; auto.
  - apply IH. intros a b Ha Hb. apply H; right; auto.
Qed.

Lemma sum_ge l n : In n l -> n <= sumN l.
Proof.
  induction l as [|a l IH]; intros H; [easy|]. cbn [sumN fold_right]. change (fold_right N.add 0 l) with (sumN l).
  destruct H as [<-|H]; [lia|]. specialize (IH H). lia.
Qed.

Lemma in_mid WT M s1 s2 s3 s4 sf sy nt n0 rest e :
  In e (singles M s1 s2 s3 s4 sf sy nt) -> In e (full WT M s1 s2 s3 s4 sf sy nt n0 rest).
Proof. intros H. unfold full. apply in_or_app; right. apply in_or_app; auto. Qed.
Lemma in_work WT M s1 s2 s3 s4 sf sy nt n0 rest e :
  In e WT -> In e (full WT M s1 s2 s3 s4 sf sy nt n0 rest).
Proof. intros H. unfold full. apply in_or_app; auto. Qed.

Lemma routine_ok r WT M nq s1 s2 s3 s4 sf sy nt n0 rest :
  chained 0 WT (8 * n_work M nq) -> n0 + sumN rest <= nt -> nt <= nall_max M ->
  (forall b, match b with Bpe1 => 8 * s1 <= with_locals (heap_of M nq) (own r) b
             | Bpe2 => 8 * s2 <= with_locals (heap_of M nq) (own r) b
             | Bpe3 => 8 * s3 <= with_locals (heap_of M nq) (own r) b
             | Bpe4 => 8 * s4 <= with_locals (heap_of M nq) (own r) b
             | Bfall | Bfeall => 8 * sf <= with_locals (heap_of M nq) (own r) b
             | Byqall => 8 * sy <= with_locals (heap_of M nq) (own r) b
             | _ => heap_of M nq b <= with_locals (heap_of M nq) (own r) b end) ->
  List.Forall (fits (full WT M s1 s2 s3 s4 sf sy nt n0 rest)) (accs r) ->
  all_inside (with_locals (heap_of M nq) (own r)) (accs r) /\ all_apart (accs r).
Proof.
  intros C L NT H F. split.
  - eapply table_inside; [exact F|]. apply (full_bound WT M nq); auto.
  - eapply table_apart; [exact F|]. apply (full_clear _ _ _ _ _ _ _ _ _ _ _ (8 * n_work M nq)); auto.
Qed.

Ltac find_in := match goal with |- In _ (_ :: _) => first [left; reflexivity | right; find_in] end.
Ltac place := first [apply in_work; find_in | apply in_mid; unfold singles; find_in].
Ltac bound := first [apply bnd_mat; lia | apply bnd_upto; lia | apply bnd_from; lia].
Ltac locs := repeat match goal with |- context [if blk_eq_dec ?a ?b then _ else _] => destruct (blk_eq_dec a b); [try discriminate|try congruence] end; cbv beta; lia.
Ltac fitt := eapply fits_in; [place|bound].

Section Con.
Variables (M : maxima) (nq : N) (d : curves).
Hypotheses (Z : sizes M nq d) (Q1 : 1 <= nq) (Q3 : nq <= 3) (C1 : 1 <= con d).

Let ns := ns_of M nq.

Lemma ns_ge : nq <= ns /\ ncon_max M * nq <= nall_max M * ns /\ nq * nq <= ns * ns /\ con d * nq <= ncon_max M * nq /\
  con d * con d <= nall_max M * nall_max M /\ con d <= nall_max M /\ con d <= n_ipiv M /\ nq <= n_ipiv M /\
  con d * 3 <= nrec_max M /\ con d * (con d * 3) <= nall_max M * nrec_max M /\ (con d * 3) * (con d * 3) <= nrec_max M * nrec_max M /\
  nq * nq <= nrec_max M * ns /\ 1 * nq <= con d * nq /\ con d * 1 <= con d * nq /\
  (con d * 3) * nq <= nrec_max M * ns /\ (con d * 3) * nq <= (con d * 3) * (con d * 3) /\ con d * (con d * 3) <= con d * 3 * (con d * 3).
Proof.
  destruct Z as [Z1 Z2 Z3 Z4 Z5 Z6 Z7 Z8 Z9 ZA].
  assert (A : 1 * nq <= (1 + nlset_max M) * nq) by (apply N.mul_le_mono_r; lia).
  fold (ns_of M nq) in A. fold ns in A.
  assert (B : con d * 3 * 1 <= con d * 3 * (1 + nlset d)) by (apply N.mul_le_mono_l; lia).
  assert (I : nall_max M <= n_ipiv M /\ nrec_max M <= n_ipiv M) by (unfold n_ipiv; destruct (N.ltb_spec (nrec_max M) (nall_max M)); lia).
  repeat split; try lia; try (apply N.mul_le_mono; lia); try (apply N.mul_le_mono_r; lia).
Qed.

Definition con_tbl : table :=
  let Larr := base "Larr" Bwork in
  let ybuf := adv "ybuf" Larr (ncon_max M * nq) in
  let y := adv "y" ybuf (ncon_max M * nq) in
  let yq := adv "yq" y (ncon_max M) in
  let Cq := adv "Cq" yq nq in
  let ICq := adv "ICq" Cq (nq * nq) in
  [(Larr, ncon_max M * nq); (ybuf, ncon_max M * nq); (y, ncon_max M); (yq, nq); (Cq, nq * nq); (ICq, nq * nq)].

Theorem prob_con_ok :
  all_inside (with_locals (heap_of M nq) (own (prob_con M nq d))) (accs (prob_con M nq d)) /\ all_apart (accs (prob_con M nq d)).
Proof.
  destruct ns_ge as (A1 & A2 & A3 & A4 & A5 & A6 & A7 & A8 & A9 & AA & AB & AC & AD & AE & AF & AG & AH).
  destruct Z as [Z1 Z2 Z3 Z4 Z5 Z6 Z7 Z8 Z9 ZA].
  apply (routine_ok _ con_tbl M nq 0 0 0 0 0 0 0 0 []).
  - unfold con_tbl. cbn [chained off es bk adv base]. repeat split; try lia.
    unfold n_work. fold ns. lia.
  - cbn. lia.
  - lia.
  - intros []; cbn [prob_con own with_locals]; lia.
  - unfold prob_con, con_tbl, covar_P_con, inv_, mul_MN, mul_TA, matvec, matvec_MN, opt. cbn [accs app].
    fa; first [fitt | eapply fits_in; [place|apply (bnd_box _ _ _ _ _ (con d)); lia]].
Qed.

Definition con_semi_tbl : table :=
  let Larr := base "Larr" Bwork in
  let ybuf := adv "ybuf" Larr (ncon_max M * nq) in
  let y := adv "y" ybuf (ncon_max M * nq) in
  let yq := adv "yq" y (ncon_max M) in
  let Cq := adv "Cq" yq nq in
  let W := adv "W" Cq (nq * nq) in
  let D := adv "D" W (ncon_max M) in
  let phi := adv "phi" D (ncon_max M) in
  [(Larr, ncon_max M * nq); (ybuf, ncon_max M * nq); (y, ncon_max M); (yq, nq); (Cq, nq * nq);
   (W, ncon_max M); (D, ncon_max M); (phi, ncon_max M)].

Theorem prob_con_semi_ok :
  all_inside (with_locals (heap_of M nq) (own (prob_con_semi M nq d))) (accs (prob_con_semi M nq d)) /\
  all_apart (accs (prob_con_semi M nq d)).
Proof.
  destruct ns_ge as (A1 & A2 & A3 & A4 & A5 & A6 & A7 & A8 & A9 & AA & AB & AC & AD & AE & AF & AG & AH).
  destruct Z as [Z1 Z2 Z3 Z4 Z5 Z6 Z7 Z8 Z9 ZA].
  apply (routine_ok _ con_semi_tbl M nq 0 0 0 0 0 0 0 0 []).
  - unfold con_semi_tbl. cbn [chained off es bk adv base]. repeat split; try lia.
    unfold n_work. fold ns. lia.
  - cbn. lia.
  - lia.
  - intros []; cbn [prob_con_semi own with_locals]; lia.
  - unfold prob_con_semi, con_semi_tbl, semi_compute, semi_mat, semi_vec, inv_, mul_MN, mul_TA, matvec_TA, matvec_MN, opt. cbn [accs app].
    fa; first [fitt | eapply fits_in; [place|apply (bnd_box _ _ _ _ _ (con d)); lia]].
Qed.

Definition rec_con_tbl : table :=
  let nd := con d in
  let n := con d * nscale in
  let Larr := base "Larr" Bwork in
  let ybuf := adv "ybuf" Larr (nd * nq) in
  let y := adv "y" ybuf (nd * nq) in
  let Cq := adv "Cq" y nd in
  let yq := adv "yq" Cq (nq * nq) in
  let yuq := adv "yuq" yq nq in
  let Larr_rec := adv "Larr_rec" yuq n in
  let W := adv "W" Larr_rec (n * nq) in
  let D := adv "D" W nd in
  let phi := adv "phi" D nd in
  [(Larr, nd * nq); (ybuf, nd * nq); (y, nd); (Cq, nq * nq); (yq, nq); (yuq, n); (Larr_rec, n * nq);
   (W, nd); (D, nd); (phi, nd)].

Ltac fitc := first [fitt | eapply fits_in; [place|apply (bnd_box _ _ _ _ _ (con d)); lia]
  | eapply fits_in; [place|apply (bnd_box _ _ _ _ _ (con d * 3)); lia]].

Theorem rec_con_ok : nq <= con d ->
  all_inside (with_locals (heap_of M nq) (own (rec_con M nq d))) (accs (rec_con M nq d)) /\
  all_apart (accs (rec_con M nq d)).
Proof.
  intros QC. destruct ns_ge as (A1 & A2 & A3 & A4 & A5 & A6 & A7 & A8 & A9 & AA & AB & AC & AD & AE & AF & AG & AH).
  destruct Z as [Z1 Z2 Z3 Z4 Z5 Z6 Z7 Z8 Z9 ZA].
  assert (X : con d * 3 * nq <= con d * 3 * con d) by (apply N.mul_le_mono_l; lia).
  pose (n := con d * 3).
  apply (routine_ok _ rec_con_tbl M nq (n * con d) (n * n) (n * nq) (n * n) (ncon_max M * 3) nq 0 0 []).
  - unfold rec_con_tbl, nscale. cbn [chained off es bk adv base]. repeat split; try lia.
    unfold n_work. fold ns. lia.
  - cbn. lia.
  - lia.
  - intros []; cbn [rec_con own with_locals]; unfold nscale; locs.
  - unfold rec_con, rec_con_tbl, nscale, covar_P_con, covar_U_con, inv_, mul_MN, mul_TA, mul_TB, matvec, matvec_MN, opt. cbn [accs app].
    fa; fitc.
Qed.

Theorem rec_con_semi_ok : nq <= con d ->
  all_inside (with_locals (heap_of M nq) (own (rec_con_semi M nq d))) (accs (rec_con_semi M nq d)) /\
  all_apart (accs (rec_con_semi M nq d)).
Proof.
  intros QC. destruct ns_ge as (A1 & A2 & A3 & A4 & A5 & A6 & A7 & A8 & A9 & AA & AB & AC & AD & AE & AF & AG & AH).
  destruct Z as [Z1 Z2 Z3 Z4 Z5 Z6 Z7 Z8 Z9 ZA].
  assert (X : con d * 3 * nq <= con d * 3 * con d) by (apply N.mul_le_mono_l; lia).
  pose (n := con d * 3).
  apply (routine_ok _ rec_con_tbl M nq (n * con d) (n * n) 0 0 (ncon_max M * 3) nq 0 0 []).
  - unfold rec_con_tbl, nscale. cbn [chained off es bk adv base]. repeat split; try lia.
    unfold n_work. fold ns. lia.
  - cbn. lia.
  - lia.
  - intros []; cbn [rec_con_semi own with_locals]; unfold nscale; locs.
  - unfold rec_con_semi, rec_con_tbl, nscale, covar_U_con, semi_compute, semi_mat, semi_matT, inv_, mul_MN, mul_TA, mul_TB, matvec_TA, matvec_MN, opt. cbn [accs app].
    fa; fitc.
Qed.
End Con.

(** * The lines *)
Lemma semi_iter_fits WT M s1 s2 s3 s4 sf sy nt n0 rest fe W D phi narr A EA En ew ed ep ef :
  let T := full WT M s1 s2 s3 s4 sf sy nt n0 rest in
  In (A, EA) T -> nt * nt <= EA -> In (narr, En) T -> In (W, ew) T -> n0 <= ew -> In (D, ed) T -> n0 <= ed ->
  In (phi, ep) T -> n0 <= ep -> In (fe, ef) T -> n0 <= ef ->
  1 <= n0 -> n0 + sumN rest <= nt -> nt <= n_ipiv M -> 1 + N.of_nat (List.length rest) <= En ->
  List.Forall (fits T) (semi_iter fe W D phi A nt narr (n0 :: rest) ipiv).
Proof.
  intros T HA LA Hn HW LW HD LD HP LP HF LF N1 NT IP KE.
  assert (X : n0 * n0 <= nt * nt) by (apply N.mul_le_mono; lia).
  assert (HI : In (Ai0, nt * nt) T) by (apply in_mid; unfold singles; find_in).
  assert (HV : In (ipiv, n_ipiv M) T) by (apply in_mid; unfold singles; find_in).
  unfold semi_iter. fold Ai0. unfold semi_inverse, semi_compute, opt. fa.
  1: apply (fits_in _ _ _ _ Hn); apply bnd_from; lia.
  all: try (first [apply (fits_in _ _ _ _ HW) | apply (fits_in _ _ _ _ HD) | apply (fits_in _ _ _ _ HP) | apply (fits_in _ _ _ _ HF) | apply (fits_in _ _ _ _ HI)];
    first [apply bnd_upto; lia | apply bnd_mat; lia]).
  eapply passes_fits; try exact HA; try exact HI; try exact Hn; try exact HV; auto; try lia.
  - intros _. repeat split; eauto.
  - intros x Hx. unfold T, full. apply in_or_app; right. apply in_or_app; auto.
Qed.

Lemma part_iter_fits WT M s1 s2 s3 s4 sf sy nt n0 rest narr A EA En :
  let T := full WT M s1 s2 s3 s4 sf sy nt n0 rest in
  In (A, EA) T -> nt * nt <= EA -> In (narr, En) T ->
  1 <= n0 -> n0 + sumN rest <= nt -> nt <= n_ipiv M -> 1 + N.of_nat (List.length rest) <= En ->
  List.Forall (fits T) (part_iter A nt narr (n0 :: rest) ipiv).
Proof.
  intros T HA LA Hn N1 NT IP KE.
  assert (X : n0 * n0 <= nt * nt) by (apply N.mul_le_mono; lia).
  assert (Y : n0 * nt <= nt * nt) by (apply N.mul_le_mono_r; lia).
  assert (HI : In (Ai0, nt * nt) T) by (apply in_mid; unfold singles; find_in).
  assert (HV : In (ipiv, n_ipiv M) T) by (apply in_mid; unfold singles; find_in).
  unfold part_iter. fold Ai0. unfold inv_. fa.
  - apply (fits_in _ _ _ _ Hn); apply bnd_from; lia.
  - apply (fits_in _ _ _ _ HI); apply bnd_mat; lia.
  - apply (fits_in _ _ _ _ HA); apply (bnd_box _ _ _ _ _ n0); lia.
  - apply (fits_in _ _ _ _ HI); apply bnd_mat; lia.
  - apply (fits_in _ _ _ _ HV); apply bnd_upto; lia.
  - eapply passes_fits; try exact HA; try exact HI; try exact Hn; try exact HV; auto; try lia.
    intros x Hx. unfold T, full. apply in_or_app; right. apply in_or_app; auto.
Qed.

Lemma cov_line_fits WT M s1 s2 s3 s4 sf sy nt n0 rest w l :
  sumN l * w <= nall_max M * nall_max M -> sumN l <= w ->
  List.Forall (fits (full WT M s1 s2 s3 s4 sf sy nt n0 rest)) (covar_P_line w l).
Proof.
  intros H1 H2. unfold covar_P_line. fa.
  - eapply pairs_fits; [apply in_mid; unfold singles; find_in| |]; lia.
  - eapply pairs_fits; [apply in_mid; unfold singles; find_in| |]; lia.
Qed.

Lemma sum_repeat x n : sumN (repeat x n) = N.of_nat n * x.
Proof.
  induction n as [|n IH]; [reflexivity|]. cbn [repeat sumN fold_right]. change (fold_right N.add 0 (repeat x n)) with (sumN (repeat x n)).
  rewrite IH. lia.
Qed.

Section Line.
Variables (M : maxima) (nq : N) (d : curves).
Hypotheses (Z : sizes M nq d) (Q1 : 1 <= nq) (Q3 : nq <= 3) (C1 : 1 <= con d).

Let ns := ns_of M nq.
Let q := nq * (1 + nlset d).
Let na := nall d.

Lemma line_ge : q <= ns /\ 1 <= q /\ nq <= q /\ na <= nall_max M /\ na * q <= nall_max M * ns /\ q * q <= ns * ns /\
  na * na <= nall_max M * nall_max M /\ q <= n_ipiv M /\ na <= n_ipiv M /\ nall_max M * 1 <= nall_max M * ns /\
  1 * ns <= nall_max M * ns /\ q <= nq * (1 + nlset_max M) /\ nrec_max M * 1 <= nrec_max M * ns /\
  nlset d * nq + nq = q /\ con d <= na /\ 1 + nlset d <= nrec_max M /\ nrec_max M <= n_ipiv M /\ con d * q <= na * q /\
  na * 1 <= na * q /\ 1 * q <= na * q.
Proof.
  destruct Z as [Z1 Z2 Z3 Z4 Z5 Z6 Z7 Z8 Z9 ZA].
  assert (A : q <= ns). { unfold q, ns, ns_of. rewrite N.mul_comm. apply N.mul_le_mono_r. lia. }
  assert (B : nq * 1 <= q) by (apply N.mul_le_mono_l; lia).
  assert (B' : 3 * (1 + nlset d) <= con d * 3 * (1 + nlset d)) by (apply N.mul_le_mono_r; lia).
  assert (C : q <= 3 * (1 + nlset d)) by (apply N.mul_le_mono_r; lia).
  assert (I : nall_max M <= n_ipiv M /\ nrec_max M <= n_ipiv M) by (unfold n_ipiv; destruct (N.ltb_spec (nrec_max M) (nall_max M)); lia).
  assert (N1 : con d <= na) by (unfold na, nall; lia).
  repeat split; try lia; try (apply N.mul_le_mono; lia); try (apply N.mul_le_mono_r; lia); try (apply N.mul_le_mono_l; lia).
  all: unfold q, na; lia.
Qed.

Lemma cov_array_fits WT s1 s2 s3 s4 sf sy nt n0 rest :
  List.Forall (fits (full WT M s1 s2 s3 s4 sf sy nt n0 rest)) (covar_P_array_mmap d).
Proof.
  destruct line_ge as (A1 & A2 & A3 & A4 & A5 & A6 & A7 & A8 & A9 & AA & AB & AC & AD & AE & AF & AG & AH & AI & AJ & AK).
  destruct Z as [Z1 Z2 Z3 Z4 Z5 Z6 Z7 Z8 Z9 ZA].
  assert (X1 : forall n, In n (lines d) -> con d * n <= ncon_max M * nline_max M) by (intros; apply N.mul_le_mono; auto).
  assert (X2 : forall n m, In n (lines d) -> In m (lines d) -> n * m <= nline_max M * nline_max M) by (intros; apply N.mul_le_mono; auto).
  assert (S : sumN (con d :: lines d) = na) by reflexivity.
  unfold covar_P_array_mmap, covar_P_array. fa.
  - apply cov_line_fits; rewrite S; fold na; lia.
  - eapply slc_fits; [apply in_mid; unfold singles; find_in|auto].
  - eapply sll_fits; [apply in_mid; unfold singles; find_in|auto].
  - eapply slc_fits; [apply in_mid; unfold singles; find_in|auto].
  - eapply sll_fits; [apply in_mid; unfold singles; find_in|auto].
Qed.

Lemma cov_arr_fits WT s1 s2 s3 s4 sf sy nt n0 rest :
  List.Forall (fits (full WT M s1 s2 s3 s4 sf sy nt n0 rest)) (covar_P_array d).
Proof. pose proof (cov_array_fits WT s1 s2 s3 s4 sf sy nt n0 rest) as H. unfold covar_P_array_mmap in H. now apply Forall_app in H. Qed.

Lemma cov_plain_fits WT s1 s2 s3 s4 sf sy nt n0 rest :
  List.Forall (fits (full WT M s1 s2 s3 s4 sf sy nt n0 rest)) (covar_P_line (nall d) (con d :: lines d)).
Proof. pose proof (cov_arr_fits WT s1 s2 s3 s4 sf sy nt n0 rest) as H. unfold covar_P_array in H. now apply Forall_app in H. Qed.

Definition line_tbl : table :=
  let Larr := base "Larr" Bwork in
  let ybuf := adv "ybuf" Larr (nall_max M * ns) in
  let y := adv "y" ybuf (nall_max M * ns) in
  let yq := adv "yq" y (nall_max M) in
  let Cq := adv "Cq" yq ns in
  let W := adv "W" Cq (ns * ns) in
  let D := adv "D" W (nall_max M) in
  let phi := adv "phi" D (nall_max M) in
  let fe := adv "fe" phi (nall_max M) in
  let narr := advi "narr" fe (nall_max M) in
  [(Larr, nall_max M * ns); (ybuf, nall_max M * ns); (y, nall_max M); (yq, ns); (Cq, ns * ns);
   (W, nall_max M); (D, nall_max M); (phi, nall_max M); (fe, nall_max M); (narr, 1 + nlset d)].

Lemma prob_line_with_ok cov :
  List.Forall (fits (full line_tbl M 0 0 0 0 0 (nq * (1 + nlset_max M)) na (con d) (lines d))) cov ->
  all_inside (with_locals (heap_of M nq) (own (prob_line_with cov M nq d))) (accs (prob_line_with cov M nq d)) /\
  all_apart (accs (prob_line_with cov M nq d)).
Proof.
  intros HC.
  destruct line_ge as (A1 & A2 & A3 & A4 & A5 & A6 & A7 & A8 & A9 & AA & AB & AC & AD & AE & AF & AG & AH & AI & AJ & AK).
  destruct Z as [Z1 Z2 Z3 Z4 Z5 Z6 Z7 Z8 Z9 ZA].
  assert (NA : con d + sumN (lines d) = na) by reflexivity.
  apply (routine_ok _ line_tbl M nq 0 0 0 0 0 (nq * (1 + nlset_max M)) na (con d) (lines d)).
  - unfold line_tbl. cbn [chained off es bk adv advi base]. repeat split; try lia.
    unfold n_work. fold ns. lia.
  - lia.
  - lia.
  - intros []; cbn [prob_line_with own with_locals heap_of]; lia.
  - unfold prob_line_with, inv_, mul_MN, mul_TA, matvec, matvec_TA, matvec_MN, opt. fold ns. fold q. fold na. cbn [accs app].
    fa; auto.
    all: try (unfold line_tbl; fitt).
    + unfold line_tbl. eapply trend_con_fits; [place| | |]; lia.
    + unfold line_tbl. eapply trend_lines_fits; [place| | |]; [lia|unfold nlset in AE; lia|rewrite NA; lia].
    + unfold line_tbl. eapply semi_iter_fits; try place; try lia. unfold nlset. lia.
Qed.

Theorem prob_line_ok :
  all_inside (with_locals (heap_of M nq) (own (prob_line M nq d))) (accs (prob_line M nq d)) /\ all_apart (accs (prob_line M nq d)).
Proof. apply prob_line_with_ok, cov_arr_fits. Qed.

Theorem prob_mmap_ok :
  all_inside (with_locals (heap_of M nq) (own (prob_mmap M nq d))) (accs (prob_mmap M nq d)) /\ all_apart (accs (prob_mmap M nq d)).
Proof. apply prob_line_with_ok, cov_array_fits. Qed.

(** ** Reconstruction *)
Variable nd_rec : N.
Let rp := rec_points nd_rec d.
Let nt := sumN (rec_sizes nd_rec d).

Lemma nt_val : nt = rp + nlset d * rp /\ sumN (List.tl (rec_sizes nd_rec d)) = nlset d * rp /\
  N.of_nat (List.length (List.tl (rec_sizes nd_rec d))) = nlset d.
Proof.
  unfold nt, rec_sizes. cbn [Nat.add repeat sumN fold_right List.tl].
  change (fold_right N.add 0 (repeat (rec_points nd_rec d) (List.length (lines d)))) with (sumN (repeat (rec_points nd_rec d) (List.length (lines d)))).
  rewrite sum_repeat, repeat_length. unfold rp, nlset. lia.
Qed.

Lemma rec_ge : nq <= nd_rec -> q <= nt /\ nt <= nrec_max M /\ rp <= nt /\ nt * q <= nrec_max M * ns /\ nt * nt <= nrec_max M * nrec_max M /\
  nt * na <= nall_max M * nrec_max M /\ rp * q <= nt * q /\ nt * 1 <= nt * nt /\ 1 <= nt /\ nt * q <= nt * nt.
Proof.
  intros HQ. destruct nt_val as (N1 & _).
  destruct line_ge as (A1 & A2 & A3 & A4 & A5 & A6 & A7 & A8 & A9 & AA & AB & AC & AD & AE & AF & AG & AH & AI & AJ & AK).
  destruct Z as [Z1 Z2 Z3 Z4 Z5 Z6 Z7 Z8 Z9 ZA].
  assert (R : nq <= rp /\ rp <= con d * 3) by (unfold rp, rec_points, nscale; lia).
  assert (Y : nlset d * nq <= nlset d * rp) by (apply N.mul_le_mono_l; lia).
  assert (Y2 : rp * (1 + nlset d) <= con d * 3 * (1 + nlset d)) by (apply N.mul_le_mono_r; lia).
  assert (Y3 : q <= nt) by lia.
  assert (Y4 : nt <= nrec_max M) by lia.
  repeat split; try lia; try (apply N.mul_le_mono; lia); try (apply N.mul_le_mono_r; lia); try (apply N.mul_le_mono_l; lia).
  rewrite (N.mul_comm (nall_max M)). apply N.mul_le_mono; lia.
Qed.

Definition rec_line_tbl : table :=
  let Larr := base "Larr" Bwork in
  let ybuf := adv "ybuf" Larr (na * q) in
  let y := adv "y" ybuf (na * q) in
  let Cq := adv "Cq" y na in
  let yq := adv "yq" Cq (q * q) in
  let yuq := adv "yuq" yq q in
  let Larr_rec := adv "Larr_rec" yuq nt in
  let W := adv "W" Larr_rec (nt * q) in
  let D := adv "D" W na in
  let phi := adv "phi" D na in
  let fe := adv "fe" phi na in
  let narr := advi "narr" fe (con d) in
  [(Larr, na * q); (ybuf, na * q); (y, na); (Cq, q * q); (yq, q); (yuq, nt); (Larr_rec, nt * q);
   (W, na); (D, na); (phi, na); (fe, con d); (narr, 1 + nlset d)].

Lemma rec_line_with_ok cov : nq <= nd_rec -> lines d <> [] -> q <= na ->
  List.Forall (fits (full rec_line_tbl M (nt * na) (nt * nt) 0 0 nt (nq * (1 + nlset_max M)) na (con d) (lines d))) cov ->
  all_inside (with_locals (heap_of M nq) (own (rec_line_with cov M nq nd_rec d))) (accs (rec_line_with cov M nq nd_rec d)) /\
  all_apart (accs (rec_line_with cov M nq nd_rec d)).
Proof.
  intros HQ HL HP HC.
  destruct line_ge as (A1 & A2 & A3 & A4 & A5 & A6 & A7 & A8 & A9 & AA & AB & AC & AD & AE & AF & AG & AH & AI & AJ & AK).
  destruct (rec_ge HQ) as (B1 & B2 & B3 & B4 & B5 & B6 & B7 & B8 & B9 & BA). destruct nt_val as (N1 & N2 & N3).
  destruct Z as [Z1 Z2 Z3 Z4 Z5 Z6 Z7 Z8 Z9 ZA].
  assert (NA : con d + sumN (lines d) = na) by reflexivity.
  assert (L1 : 1 <= nlset d) by (unfold nlset; destruct (lines d); [congruence|cbn [List.length]; lia]).
  assert (S2 : 2 * nrec_max M <= ns * nrec_max M) by (apply N.mul_le_mono_r; lia).
  assert (PQ : nt * q <= nt * na) by (apply N.mul_le_mono_l; lia).
  apply (routine_ok _ rec_line_tbl M nq (nt * na) (nt * nt) 0 0 nt (nq * (1 + nlset_max M)) na (con d) (lines d)).
  - unfold rec_line_tbl. cbn [chained off es bk adv advi base]. repeat split; try lia.
    unfold n_work. fold ns. lia.
  - lia.
  - lia.
  - intros []; cbn [rec_line_with own with_locals heap_of]; fold nt; fold na; locs.
  - unfold rec_line_with, covar_U_line, covar_A_line, inv_, mul_MN, mul_TA, mul_TB, matvec, matvec_TA, matvec_MN, opt.
    fold nt. fold q. fold na. fold rp. cbn [accs app].
    fa; auto.
    all: try (unfold rec_line_tbl; fitt).
    + eapply pairs_fits; [place| |]; [fold nt; lia|]. change (sumN (con d :: lines d)) with na. lia.
    + eapply pairs_fits; [place| |]; fold nt; lia.
    + unfold rec_line_tbl. eapply trend_con_fits; [place| | |]; lia.
    + unfold rec_line_tbl. eapply trend_lines_fits; [place| | |]; [lia|unfold nlset in AE; lia|rewrite NA; lia].
    + unfold rec_line_tbl. eapply semi_iter_fits; try place; try lia. unfold nlset. lia.
    + unfold rec_line_tbl. eapply trend_con_fits; [place| | |]; lia.
    + unfold rec_line_tbl. eapply trend_lines_fits; [place| | |]; [lia|rewrite N3; lia|rewrite N2, <- N1; lia].
Qed.

Theorem rec_line_ok : nq <= nd_rec -> lines d <> [] -> q <= na ->
  all_inside (with_locals (heap_of M nq) (own (rec_line M nq nd_rec d))) (accs (rec_line M nq nd_rec d)) /\
  all_apart (accs (rec_line M nq nd_rec d)).
Proof. intros. apply rec_line_with_ok; auto. apply cov_plain_fits. Qed.

Theorem rec_mmap_ok : nq <= nd_rec -> lines d <> [] -> q <= na ->
  all_inside (with_locals (heap_of M nq) (own (rec_mmap M nq nd_rec d))) (accs (rec_mmap M nq nd_rec d)) /\
  all_apart (accs (rec_mmap M nq nd_rec d)).
Proof. intros. apply rec_line_with_ok; auto. apply cov_array_fits. Qed.

Definition single_tbl : table :=
  let Larr := base "Larr" Bwork in
  let ybuf := adv "ybuf" Larr (na * q) in
  let y := adv "y" ybuf (na * q) in
  let Cq := adv "Cq" y na in
  let yq := adv "yq" Cq (q * q) in
  let yave := adv "yave" yq q in
  let yuq := adv "yuq" yave na in
  let Larr_rec := adv "Larr_rec" yuq nt in
  [(Larr, na * q); (ybuf, na * q); (y, na); (Cq, q * q); (yq, q); (yave, na); (yuq, nt); (Larr_rec, nt * q)].

Let ntm := if nall_max M <? nt then nt else nall_max M.

Lemma rec_single_with_ok cov : nq <= nd_rec ->
  List.Forall (fits (full single_tbl M (ntm * ntm) (ntm * ntm) (ntm * ntm) (ntm * ntm) nt (nq * (1 + nlset_max M)) na (con d) (lines d))) cov ->
  all_inside (with_locals (heap_of M nq) (own (rec_single_with cov M nq nd_rec d))) (accs (rec_single_with cov M nq nd_rec d)) /\
  all_apart (accs (rec_single_with cov M nq nd_rec d)).
Proof.
  intros HQ HC.
  destruct line_ge as (A1 & A2 & A3 & A4 & A5 & A6 & A7 & A8 & A9 & AA & AB & AC & AD & AE & AF & AG & AH & AI & AJ & AK).
  destruct (rec_ge HQ) as (B1 & B2 & B3 & B4 & B5 & B6 & B7 & B8 & B9 & BA). destruct nt_val as (N1 & N2 & N3).
  destruct Z as [Z1 Z2 Z3 Z4 Z5 Z6 Z7 Z8 Z9 ZA].
  assert (NA : con d + sumN (lines d) = na) by reflexivity.
  assert (T1 : nt <= ntm /\ na <= ntm) by (unfold ntm; destruct (N.ltb_spec (nall_max M) nt); lia). destruct T1 as [T1 T2].
  assert (P1 : na * na <= ntm * ntm) by (apply N.mul_le_mono; lia).
  assert (P2 : na * q <= ntm * ntm) by (apply N.mul_le_mono; lia).
  assert (P3 : q * q <= ntm * ntm) by (apply N.mul_le_mono; lia).
  assert (P4 : nt * na <= ntm * ntm) by (apply N.mul_le_mono; lia).
  assert (P5 : nt * nt <= ntm * ntm) by (apply N.mul_le_mono; lia).
  assert (P6 : na * 1 <= na * na) by (apply N.mul_le_mono_l; lia).
  apply (routine_ok _ single_tbl M nq (ntm * ntm) (ntm * ntm) (ntm * ntm) (ntm * ntm) nt (nq * (1 + nlset_max M)) na (con d) (lines d)).
  - unfold single_tbl. cbn [chained off es bk adv advi base]. repeat split; try lia.
    unfold n_work. fold ns. lia.
  - lia.
  - lia.
  - intros []; cbn [rec_single_with rec_dense own with_locals heap_of]; fold nt; fold ntm; locs.
  - unfold rec_single_with, rec_dense, covar_U_line, covar_A_line, inv_, mul_MN, mul_TA, mul_TB, mul_invA, matvec, matvec_TA, matvec_MN, opt.
    fold nt. fold q. fold na. fold rp. cbn [accs app].
    fa; auto.
    all: try (unfold single_tbl; fitt).
    + eapply pairs_fits; [place| |]; [fold nt; lia|]. change (sumN (con d :: lines d)) with na. lia.
    + eapply pairs_fits; [place| |]; fold nt; lia.
    + unfold single_tbl. eapply trend_con_fits; [place| | |]; lia.
    + unfold single_tbl. eapply trend_lines_fits; [place| | |]; [lia|unfold nlset in AE; lia|rewrite NA; lia].
    + unfold single_tbl. eapply trend_con_fits; [place| | |]; lia.
    + unfold single_tbl. eapply trend_lines_fits; [place| | |]; [lia|rewrite N3; lia|rewrite N2, <- N1; lia].
Qed.

Theorem rec_single_ok : nq <= nd_rec ->
  all_inside (with_locals (heap_of M nq) (own (rec_single M nq nd_rec d))) (accs (rec_single M nq nd_rec d)) /\
  all_apart (accs (rec_single M nq nd_rec d)).
Proof. intros. apply rec_single_with_ok; auto. apply cov_plain_fits. Qed.

Theorem rec_single_mmap_ok : nq <= nd_rec ->
  all_inside (with_locals (heap_of M nq) (own (rec_single_mmap M nq nd_rec d))) (accs (rec_single_mmap M nq nd_rec d)) /\
  all_apart (accs (rec_single_mmap M nq nd_rec d)).
Proof. intros. apply rec_single_with_ok; auto. apply cov_array_fits. Qed.
End Line.

(** * The virtual mode *)
Lemma fold_points nd_rec l : forall x, x <= fold_left (fun x n => N.max x (N.min (n * nscale) nd_rec)) l x /\
  (forall n, In n l -> N.min (n * nscale) nd_rec <= fold_left (fun x n => N.max x (N.min (n * nscale) nd_rec)) l x) /\
  (fold_left (fun x n => N.max x (N.min (n * nscale) nd_rec)) l x = x \/
   exists n, In n l /\ fold_left (fun x n => N.max x (N.min (n * nscale) nd_rec)) l x = N.min (n * nscale) nd_rec).
Proof.
  induction l as [|a l IH]; intros x; cbn [fold_left].
  - split; [lia|split; [intros n []|auto]].
  - destruct (IH (N.max x (N.min (a * nscale) nd_rec))) as (H1 & H2 & H3). split; [lia|]. split.
    + intros n [<-|I]; [lia|auto].
    + destruct H3 as [E|(n & I & E)].
      * rewrite E. destruct (N.max_spec x (N.min (a * nscale) nd_rec)) as [[? ->]|[? ->]]; [right; exists a; split; [left|]; auto|auto].
      * right. exists n. split; [right|]; auto.
Qed.

Section Virtual.
Variables (M : maxima) (nq : N) (d : curves).
Hypotheses (Z : sizes M nq d) (Q1 : 1 <= nq) (Q3 : nq <= 3) (C0 : con d = 0).
Hypotheses (L0 : lines d <> []) (L1 : forall n, In n (lines d) -> 1 <= n).

Let ns := ns_of M nq.
Let q := nq * nlset d.
Let na := nall d.

Lemma vmap_ge : q + nq <= ns /\ 1 <= q /\ nq <= q /\ na <= nall_max M /\ na * q <= nall_max M * ns /\ q * q <= ns * ns /\
  na * na <= nall_max M * nall_max M /\ q <= n_ipiv M /\ na <= n_ipiv M /\ nall_max M * 1 <= nall_max M * ns /\
  1 * ns <= nall_max M * ns /\ q + nq <= nq * (1 + nlset_max M) /\ nrec_max M * 1 <= nrec_max M * ns /\
  1 <= nlset d /\ 1 + nlset d <= nrec_max M /\ nrec_max M <= n_ipiv M /\ sumN (lines d) = na /\
  na * 1 <= na * q /\ 1 * q <= na * q /\ 1 <= na.
Proof.
  destruct Z as [Z1 Z2 Z3 Z4 Z5 Z6 Z7 Z8 Z9 ZA].
  assert (K : 1 <= nlset d) by (unfold nlset; destruct (lines d); [congruence|cbn [List.length]; lia]).
  assert (E : exists n, In n (lines d)) by (destruct (lines d) as [|n l]; [congruence|exists n; left; auto]).
  destruct E as (n & E). pose proof (L1 n E) as E1. pose proof (Z6 n E) as E2. pose proof (sum_ge _ _ E) as E3.
  assert (S : sumN (lines d) = na) by (unfold na, nall; lia).
  assert (A : q + nq <= ns). { replace (q + nq) with ((1 + nlset d) * nq) by (unfold q; lia). apply N.mul_le_mono_r. lia. }
  assert (B : nq * 1 <= q) by (apply N.mul_le_mono_l; lia).
  assert (B' : 3 * (1 + nlset d) <= n * 3 * (1 + nlset d)) by (apply N.mul_le_mono_r; lia).
  assert (C : q <= 3 * nlset d) by (apply N.mul_le_mono_r; lia).
  assert (I : nall_max M <= n_ipiv M /\ nrec_max M <= n_ipiv M) by (unfold n_ipiv; destruct (N.ltb_spec (nrec_max M) (nall_max M)); lia).
  assert (NS : nq * (1 + nlset_max M) = ns) by (unfold ns, ns_of; lia).
  assert (NN : na <= nall_max M) by (unfold na; lia).
  repeat split; try lia; try (apply N.mul_le_mono; lia); try (apply N.mul_le_mono_r; lia); try (apply N.mul_le_mono_l; lia).
Qed.

Definition vmap_tbl : table :=
  let Larr := base "Larr" Bwork in
  let ybuf := adv "ybuf" Larr (nall_max M * ns) in
  let y := adv "y" ybuf (nall_max M * ns) in
  let yq := adv "yq" y (nall_max M) in
  let Cq := adv "Cq" yq ns in
  let narr := advi "narr" Cq (ns * ns) in
  [(Larr, nall_max M * ns); (ybuf, nall_max M * ns); (y, nall_max M); (yq, ns); (Cq, ns * ns); (narr, nlset d)].

Theorem prob_vmap_ok :
  all_inside (with_locals (heap_of M nq) (own (prob_vmap M nq d))) (accs (prob_vmap M nq d)) /\
  all_apart (accs (prob_vmap M nq d)).
Proof.
  destruct vmap_ge as (A1 & A2 & A3 & A4 & A5 & A6 & A7 & A8 & A9 & AA & AB & AC & AD & AE & AF & AG & AH & AI & AJ & AK).
  destruct Z as [Z1 Z2 Z3 Z4 Z5 Z6 Z7 Z8 Z9 ZA].
  destruct (lines d) as [|n0 rest] eqn:EL; [congruence|].
  assert (N1 : 1 <= n0) by (apply L1; left; auto).
  assert (NL : nlset d = 1 + N.of_nat (List.length rest)) by (unfold nlset; rewrite EL; cbn [List.length]; lia).
  assert (NA : n0 + sumN rest = na) by exact AH.
  assert (X2 : forall n m, In n (lines d) -> In m (lines d) -> n * m <= nline_max M * nline_max M).
  { rewrite EL. intros. apply N.mul_le_mono; auto. }
  apply (routine_ok _ vmap_tbl M nq 0 0 0 0 0 (nq * (1 + nlset_max M)) na n0 rest).
  - unfold vmap_tbl. cbn [chained off es bk adv advi base]. repeat split; try lia.
    unfold n_work. fold ns. lia.
  - lia.
  - lia.
  - intros []; cbn [prob_vmap own with_locals heap_of]; lia.
  - unfold prob_vmap, covar_P_array_vmap, inv_, mul_MN, mul_TA, matvec, matvec_TA, matvec_MN, opt. fold ns. fold q. fold na. cbn [accs app].
    fa; auto.
    all: try (unfold vmap_tbl; fitt).
    + unfold vmap_tbl. eapply trend_lines_fits; [place| | |]; [lia|unfold q, nlset; lia|]. rewrite EL, N.add_0_l, AH. lia.
    + apply cov_line_fits; rewrite EL, AH; lia.
    + eapply sll_fits; [apply in_mid; unfold singles; find_in|auto].
    + rewrite EL. unfold vmap_tbl. eapply part_iter_fits; try place; lia.
Qed.

Variable nd_rec : N.
Let rp := rec_points_vmap nd_rec d.
Let nt := sumN (rec_sizes_vmap nd_rec d).

Lemma ntv_val : nt = rp + nlset d * rp /\ sumN (List.tl (rec_sizes_vmap nd_rec d)) = nlset d * rp /\
  N.of_nat (List.length (List.tl (rec_sizes_vmap nd_rec d))) = nlset d.
Proof.
  unfold nt, rec_sizes_vmap. cbn [Nat.add repeat sumN fold_right List.tl].
  change (fold_right N.add 0 (repeat (rec_points_vmap nd_rec d) (List.length (lines d)))) with (sumN (repeat (rec_points_vmap nd_rec d) (List.length (lines d)))).
  rewrite sum_repeat, repeat_length. unfold rp, nlset. lia.
Qed.

Lemma recv_ge : nq <= nd_rec -> q + nq <= nt /\ nt <= nrec_max M /\ rp <= nt /\ nt * q <= nrec_max M * ns /\ nt * nt <= nrec_max M * nrec_max M /\
  nt * na <= nall_max M * nrec_max M /\ rp * q <= nt * q /\ nt * 1 <= nt * nt /\ 1 <= nt /\ nt * q <= nt * nt.
Proof.
  intros HQ. destruct ntv_val as (N1 & _).
  destruct vmap_ge as (A1 & A2 & A3 & A4 & A5 & A6 & A7 & A8 & A9 & AA & AB & AC & AD & AE & AF & AG & AH & AI & AJ & AK).
  destruct Z as [Z1 Z2 Z3 Z4 Z5 Z6 Z7 Z8 Z9 ZA].
  assert (E : exists n, In n (lines d)) by (destruct (lines d) as [|n l]; [congruence|exists n; left; auto]).
  destruct (fold_points nd_rec (lines d) 0) as (_ & F2 & F3).
  assert (R : nq <= rp).
  { destruct E as (n & E). specialize (F2 n E). pose proof (L1 n E). unfold rp, rec_points_vmap. unfold nscale in *. lia. }
  assert (R2 : exists n, In n (lines d) /\ rp <= n * 3).
  { destruct F3 as [F|(n & I & F)]; [exfalso; unfold rp, rec_points_vmap in R; lia|].
    exists n. split; auto. unfold rp, rec_points_vmap. rewrite F. unfold nscale. lia. }
  destruct R2 as (n & I & R2). specialize (Z6 n I).
  assert (Y : nlset d * nq <= nlset d * rp) by (apply N.mul_le_mono_l; lia).
  assert (Y2 : rp * (1 + nlset d) <= n * 3 * (1 + nlset d)) by (apply N.mul_le_mono_r; lia).
  assert (Y3 : q + nq <= nt) by (unfold q; lia).
  assert (Y4 : nt <= nrec_max M) by lia.
  repeat split; try lia; try (apply N.mul_le_mono; lia); try (apply N.mul_le_mono_r; lia); try (apply N.mul_le_mono_l; lia).
  rewrite (N.mul_comm (nall_max M)). apply N.mul_le_mono; lia.
Qed.

Definition vrec_tbl : table :=
  let Larr := base "Larr" Bwork in
  let ybuf := adv "ybuf" Larr (na * q) in
  let y := adv "y" ybuf (na * q) in
  let Cq := adv "Cq" y na in
  let yq := adv "yq" Cq (q * q) in
  let yave := adv "yave" yq q in
  let yuq := adv "yuq" yave na in
  let Larr_rec := adv "Larr_rec" yuq nt in
  [(Larr, na * q); (ybuf, na * q); (y, na); (Cq, q * q); (yq, q); (yave, na); (yuq, nt); (Larr_rec, nt * q)].

Let ntm := if nall_max M <? nt then nt else nall_max M.

Theorem rec_vmap_ok : nq <= nd_rec ->
  all_inside (with_locals (heap_of M nq) (own (rec_vmap M nq nd_rec d))) (accs (rec_vmap M nq nd_rec d)) /\
  all_apart (accs (rec_vmap M nq nd_rec d)).
Proof.
  intros HQ.
  destruct vmap_ge as (A1 & A2 & A3 & A4 & A5 & A6 & A7 & A8 & A9 & AA & AB & AC & AD & AE & AF & AG & AH & AI & AJ & AK).
  destruct (recv_ge HQ) as (B1 & B2 & B3 & B4 & B5 & B6 & B7 & B8 & B9 & BA). destruct ntv_val as (N1 & N2 & N3).
  destruct Z as [Z1 Z2 Z3 Z4 Z5 Z6 Z7 Z8 Z9 ZA].
  assert (T1 : nt <= ntm /\ na <= ntm) by (unfold ntm; destruct (N.ltb_spec (nall_max M) nt); lia). destruct T1 as [T1 T2].
  assert (P1 : na * na <= ntm * ntm) by (apply N.mul_le_mono; lia).
  assert (P2 : na * q <= ntm * ntm) by (apply N.mul_le_mono; lia).
  assert (P3 : q * q <= ntm * ntm) by (apply N.mul_le_mono; lia).
  assert (P4 : nt * na <= ntm * ntm) by (apply N.mul_le_mono; lia).
  assert (P5 : nt * nt <= ntm * ntm) by (apply N.mul_le_mono; lia).
  assert (P6 : na * 1 <= na * na) by (apply N.mul_le_mono_l; lia).
  apply (routine_ok _ vrec_tbl M nq (ntm * ntm) (ntm * ntm) (ntm * ntm) (ntm * ntm) nt (nq * (1 + nlset_max M)) 0 0 []).
  - unfold vrec_tbl. cbn [chained off es bk adv advi base]. repeat split; try lia.
    unfold n_work. fold ns. lia.
  - cbn. lia.
  - lia.
  - intros []; cbn [rec_vmap rec_dense own with_locals heap_of]; fold nt; fold ntm; locs.
  - unfold rec_vmap, rec_dense, covar_U_line, covar_A_line, inv_, mul_MN, mul_TA, mul_TB, mul_invA, matvec, matvec_TA, matvec_MN, opt.
    fold nt. fold q. fold na. fold rp. cbn [accs app].
    fa; auto.
    all: try (unfold vrec_tbl; fitt).
    + apply cov_line_fits; rewrite AH; lia.
    + eapply pairs_fits; [place| |]; [fold nt; lia|rewrite AH; lia].
    + eapply pairs_fits; [place| |]; fold nt; lia.
    + unfold vrec_tbl. eapply trend_lines_fits; [place| | |]; [lia|unfold q, nlset; lia|rewrite N.add_0_l, AH; lia].
    + unfold vrec_tbl. eapply fits_in; [place|]. apply (bnd_box _ _ _ _ _ rp); lia.
    + unfold vrec_tbl. eapply trend_lines_fits; [place| | |]; [lia|rewrite N3; unfold q; lia|rewrite N2, <- N1; lia].
Qed.
End Virtual.
