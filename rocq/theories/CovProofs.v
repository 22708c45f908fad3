(** What the assembly loops write. *)
From Coq Require Import Reals Lra Lia Arith List Bool.
From Verif Require Import SemisepModel SemisepProofs CovModel.
Import ListNotations.
Open Scope nat_scope.

(** ** Code that writes correct values only: [writes f C] if [f] leaves correct
    entries correct and makes every entry in [C] correct. *)
Section Writer.
Context {St K : Type}.
Variable ok : St -> K -> Prop.
Variable fr : St -> St -> Prop.
Hypothesis fr_refl : forall s, fr s s.
Hypothesis fr_trans : forall a b c, fr a b -> fr b c -> fr a c.
Definition writes (f : St -> St) (C : K -> Prop) : Prop :=
  forall s, fr s (f s) /\ forall k, C k \/ ok s k -> ok (f s) k.
Lemma writes_weak f (C D : K -> Prop) : (forall k, D k -> C k) -> writes f C -> writes f D.
Proof. intros H W s. destruct (W s) as [F O]. split; [exact F|]. intros k [Dk|Ok]; apply O; auto. Qed.
Lemma writes_seq f g (C D : K -> Prop) : writes f C -> writes g D -> writes (fun s => g (f s)) (fun k => C k \/ D k).
Proof.
  intros Wf Wg s. destruct (Wf s) as [F1 O1]. destruct (Wg (f s)) as [F2 O2].
  split; [eapply fr_trans; eassumption|]. intros k [[Ck|Dk]|Ok]; apply O2; auto.
Qed.
Lemma for_snoc {A} lo n (body : nat -> A -> A) s : for_ lo (S n) body s = body (lo + n) (for_ lo n body s).
Proof. unfold for_. rewrite seq_S, fold_left_app. reflexivity. Qed.
Lemma writes_for lo n body (C : nat -> K -> Prop) : (forall i, lo <= i < lo + n -> writes (body i) (C i)) ->
  writes (for_ lo n body) (fun k => exists i, lo <= i < lo + n /\ C i k).
Proof.
  induction n as [|n IH]; intros H.
  - intros s. split; [apply fr_refl|]. intros k [(i & I & _)|O]; [lia|exact O].
  - intros s. rewrite for_snoc. destruct (IH (fun i Hi => H i ltac:(lia)) s) as [F1 O1].
    destruct (H (lo + n) ltac:(lia) (for_ lo n body s)) as [F2 O2].
    split; [eapply fr_trans; eassumption|]. intros k [(i & I & Ci)|O].
    + destruct (Nat.eq_dec i (lo + n)) as [->|N]; [apply O2; left; exact Ci|]. apply O2. right. apply O1. left. exists i. split; [lia|exact Ci].
    + apply O2. right. apply O1. right. exact O.
Qed.
End Writer.

Fixpoint psum (f : nat -> nat) (lo n : nat) : nat := match n with O => 0 | S m => psum f lo m + f (lo + m) end.
Lemma for_pos_eq {St} lo n step (body : nat -> nat -> St -> St) np s :
  for_pos lo n step body np s = (np + psum step lo n, for_ lo n (fun j => body j (np + psum step lo (j - lo))) s).
Proof.
  unfold for_pos. induction n as [|n IH].
  - cbn. f_equal; lia.
  - rewrite !for_snoc, IH. cbn [psum]. replace (lo + n - lo) with n by lia. f_equal. lia.
Qed.

(** ** Points: (0, i) is continuum point i, (1+j, i) point i of line j. *)
Section Points.
Variable size : nat -> nat.
Definition point := (nat * nat)%type.
Definition start (c : nat) : nat := psum size 0 c.
Definition pos (p : point) : nat := start (fst p) + snd p.
Variable nl : nat.
Definition valid (p : point) : Prop := fst p <= nl /\ snd p < size (fst p).
Definition total : nat := start (S nl).
Lemma start_S c : start (S c) = start c + size c.
Proof. reflexivity. Qed.
Lemma start_mono c d : c <= d -> start c <= start d.
Proof. induction 1; [lia|rewrite start_S; lia]. Qed.
Lemma start_shift c : start (S c) = size 0 + psum (fun j => size (S j)) 0 c.
Proof. induction c as [|c IH]; [unfold start; cbn; lia|]. rewrite start_S, IH. cbn [psum]. rewrite Nat.add_0_l. lia. Qed.
Lemma start_later j l : j < l -> start (S j) + size (S j) + psum (fun k => size (S k)) (j + 1) (l - (j + 1)) = start (S l).
Proof.
  intros H. rewrite <- start_S. assert (G : forall d, start (S (S j)) + psum (fun k => size (S k)) (j + 1) d = start (S (S j) + d)).
  { induction d as [|d IH]; [rewrite !Nat.add_0_r; reflexivity|]. cbn [psum]. rewrite Nat.add_assoc, IH.
    replace (S (S j) + S d) with (S (S (S j) + d)) by lia. rewrite start_S. f_equal. f_equal. lia. }
  rewrite G. f_equal. lia.
Qed.
Lemma pos_lt p : valid p -> pos p < total.
Proof.
  intros [C I]. unfold pos, total. pose proof (start_S (fst p)). pose proof (start_mono (S (fst p)) (S nl) ltac:(lia)). lia.
Qed.
Lemma pos_inj p q : valid p -> valid q -> pos p = pos q -> p = q.
Proof.
  destruct p as [c i], q as [d m]. intros [C I] [D M] E. unfold pos in E. cbn [fst snd] in *.
  destruct (Nat.lt_trichotomy c d) as [L|[->|L]].
  - pose proof (start_S c). pose proof (start_mono (S c) d L). lia.
  - f_equal. lia.
  - pose proof (start_S d). pose proof (start_mono (S d) c L). lia.
Qed.
Lemma pos_surj a : a < total -> exists p, valid p /\ pos p = a.
Proof.
  intros H. unfold total in H.
  assert (G : forall c, a < start c -> exists p, fst p < c /\ snd p < size (fst p) /\ pos p = a).
  { induction c as [|c IH]; intros L; [cbn in L; lia|]. destruct (Nat.lt_ge_cases a (start c)) as [La|La].
    - destruct (IH La) as (p & P1 & P2 & P3). exists p. repeat split; auto; lia.
    - exists (c, a - start c). unfold pos. cbn [fst snd]. rewrite start_S in L. repeat split; lia. }
  destruct (G _ H) as (p & P1 & P2 & P3). exists p. repeat split; auto; lia.
Qed.
End Points.

Lemma addr_inj n a b a' b' : b < n -> b' < n -> a * n + b = a' * n + b' -> a = a' /\ b = b'.
Proof.
  intros B B' E. assert (a = a') by nia. subst. split; [reflexivity|lia].
Qed.

Lemma point_dec (p q : point) : {p = q} + {p <> q}.
Proof. decide equality; apply Nat.eq_dec. Qed.

(** ** The two matrices at once *)
Section Mats.
Variable size : nat -> nat.
Variable nl : nat.
Notation nall := (total size nl).
Notation ps := (pos size).
Notation vl := (valid size nl).
Variable V : point -> point -> R.
Variable err : point -> R.
Hypothesis Vsym : forall p q, vl p -> vl q -> V p q = V q p.

Definition adr (p q : point) : nat := ps p * nall + ps q.
Lemma adr_inj p q p' q' : vl p -> vl q -> vl p' -> vl q' -> adr p q = adr p' q' -> p = p' /\ q = q'.
Proof.
  intros P Q P' Q' E. apply addr_inj in E; [|apply pos_lt; assumption..]. destruct E as [E1 E2]. split; eapply pos_inj; eassumption.
Qed.
Lemma adr_lt p q : vl p -> vl q -> adr p q < nall * nall.
Proof. intros P Q. unfold adr. pose proof (pos_lt _ _ _ P). pose proof (pos_lt _ _ _ Q). nia. Qed.
Definition dg (p q : point) : R := if point_dec p q then err p else 0%R.
Definition okM (M : mats) (k : point * point) : Prop :=
  vl (fst k) -> vl (snd k) ->
  snd M (adr (fst k) (snd k)) = V (fst k) (snd k) /\ fst M (adr (fst k) (snd k)) = (V (fst k) (snd k) + dg (fst k) (snd k))%R.
Definition frM (M M' : mats) : Prop := forall x, nall * nall <= x -> fst M' x = fst M x /\ snd M' x = snd M x.
Lemma frM_refl M : frM M M. Proof. intros x _; split; reflexivity. Qed.
Lemma frM_trans a b c : frM a b -> frM b c -> frM a c.
Proof. intros H1 H2 x X. destruct (H1 x X), (H2 x X). split; congruence. Qed.
Notation wr := (writes okM frM).

Lemma set4_writes p q a b v : vl p -> vl q -> p <> q -> a = adr p q -> b = adr q p -> v = V p q ->
  wr (set4 a b v) (fun k => k = (p, q) \/ k = (q, p)).
Proof.
  intros P Q N -> -> -> [PC PS]. cbn [set4]. split.
  - intros x X. cbn [fst snd]. pose proof (adr_lt p q P Q). pose proof (adr_lt q p Q P). rewrite !upd_other by lia. split; reflexivity.
  - intros [r s] H Vr Vs. cbn [fst snd] in *. unfold upd.
    destruct (Nat.eqb_spec (adr r s) (adr p q)) as [E|E].
    { apply adr_inj in E; auto. destruct E as [-> ->]. unfold dg. destruct (point_dec p q); [contradiction|]. split; [reflexivity|ring]. }
    destruct (Nat.eqb_spec (adr r s) (adr q p)) as [E'|E'].
    { apply adr_inj in E'; auto. destruct E' as [-> ->]. unfold dg. destruct (point_dec q p); [congruence|].
      rewrite (Vsym p q P Q). split; [reflexivity|ring]. }
    destruct H as [[H|H]|H]; [injection H as -> ->; congruence..|apply H; assumption].
Qed.
Lemma diag_writes p a v e : vl p -> a = adr p p -> v = V p p -> e = err p -> wr (set_diag a v e) (fun k => k = (p, p)).
Proof.
  intros P -> -> -> [PC PS]. cbn [set_diag]. split.
  - intros x X. cbn [fst snd]. pose proof (adr_lt p p P P). rewrite !upd_other by lia. split; reflexivity.
  - intros [r s] H Vr Vs. cbn [fst snd] in *. rewrite upd_same. unfold upd.
    destruct (Nat.eqb_spec (adr r s) (adr p p)) as [E|E].
    { apply adr_inj in E; auto. destruct E as [-> ->]. unfold dg. destruct (point_dec p p); [|congruence]. split; reflexivity. }
    destruct H as [H|H]; [injection H as -> ->; congruence|apply H; assumption].
Qed.
End Mats.

(** ** One matrix, rows and columns possibly over different points *)
Section Mat.
Variables rsize csize : nat -> nat.
Variable nl : nat.
Notation ncol := (total csize nl).
Notation vr := (valid rsize nl).
Notation vc := (valid csize nl).
Variable V : point -> point -> R.
Definition adr2 (p q : point) : nat := pos rsize p * ncol + pos csize q.
Lemma adr2_inj p q p' q' : vr p -> vc q -> vr p' -> vc q' -> adr2 p q = adr2 p' q' -> p = p' /\ q = q'.
Proof.
  intros P Q P' Q' E. apply addr_inj in E; [|apply pos_lt; assumption..]. destruct E as [E1 E2]. split; eapply pos_inj; eassumption.
Qed.
Lemma adr2_lt p q : vr p -> vc q -> adr2 p q < total rsize nl * ncol.
Proof. intros P Q. unfold adr2. pose proof (pos_lt _ _ _ P). pose proof (pos_lt _ _ _ Q). nia. Qed.
Definition ok1 (M : arr) (k : point * point) : Prop := vr (fst k) -> vc (snd k) -> M (adr2 (fst k) (snd k)) = V (fst k) (snd k).
Definition fr1 (M M' : arr) : Prop := forall x, total rsize nl * ncol <= x -> M' x = M x.
Lemma fr1_refl M : fr1 M M. Proof. intros x _; reflexivity. Qed.
Lemma fr1_trans a b c : fr1 a b -> fr1 b c -> fr1 a c.
Proof. intros H1 H2 x X. rewrite H2, H1 by assumption. reflexivity. Qed.
Lemma upd_writes p q a v : vr p -> vc q -> a = adr2 p q -> v = V p q -> writes ok1 fr1 (fun M => upd M a v) (fun k => k = (p, q)).
Proof.
  intros P Q -> -> M. split.
  - intros x X. pose proof (adr2_lt p q P Q). rewrite upd_other by lia. reflexivity.
  - intros [r s] H Vr Vs. cbn [fst snd] in *. unfold upd.
    destruct (Nat.eqb_spec (adr2 r s) (adr2 p q)) as [E|E].
    { apply adr2_inj in E; auto. destruct E as [-> ->]. reflexivity. }
    destruct H as [H|H]; [injection H as -> ->; congruence|apply H; assumption].
Qed.
End Mat.

(** ** Values *)
Section Values.
Variable tau : R.
Variable Slc : R -> R -> nat -> R.
Variable Sll : R -> R -> nat -> R.
Variable Sll2 : R -> R -> nat -> nat -> R.
(** the value written for a pair of points of the same set of light curves *)
Definition sym_value (T : point -> R) (p q : point) : R :=
  match fst p, fst q with
  | O, O => exp (- Rabs (T p - T q) / tau)
  | O, S j => Slc (T p) (T q) j
  | S j, O => Slc (T q) (T p) j
  | S j, S l => if j <? l then Sll2 (T p) (T q) j l else if l <? j then Sll2 (T q) (T p) l j
                else if snd q <=? snd p then Sll (T p) (T q) j else Sll (T q) (T p) j
  end%nat.
Lemma sym_value_sym T p q : sym_value T p q = sym_value T q p.
Proof.
  destruct p as [c i], q as [d m]. unfold sym_value. cbn [fst snd]. destruct c as [|j], d as [|l]; auto.
  - rewrite Rabs_minus_sym. reflexivity.
  - destruct (Nat.ltb_spec j l), (Nat.ltb_spec l j); try lia; auto. assert (j = l) by lia. subst.
    destruct (Nat.leb_spec m i), (Nat.leb_spec i m); try lia; auto. assert (i = m) by lia. subst. reflexivity.
Qed.
(** the value written for a reconstruction point and a data point *)
Definition rect_value (T T' : point -> R) (p q : point) : R :=
  match fst p, fst q with
  | O, O => exp (- Rabs (T p - T' q) / tau)
  | O, S j => Slc (T p) (T' q) j
  | S j, O => Slc (T' q) (T p) j
  | S j, S l => if j =? l then Sll (T p) (T' q) j else Sll2 (T p) (T' q) j l
  end%nat.
End Values.

Ltac covered := repeat match goal with
  | |- exists i, _ /\ _ => eexists; split; [|]
  end.

Section Assemble.
Variable ncon : nat.
Variable tcon fe_con : arr.
Variable error_mean_con : R.
Variable nl : nat.
Variable nline : nat -> nat.
Variable tline fe_line : nat -> arr.
Variable error_mean_line : nat -> R.
Variable pm : arr.
Variable idx_con : nat.
Variable idx_line : nat -> nat.
Notation tau := (tau pm idx_con).
Notation sigma := (sigma pm idx_con).
Notation syserr := (syserr error_mean_con pm idx_con).
Notation syserr_line := (syserr_line error_mean_line pm idx_line).

Definition size (c : nat) : nat := match c with O => ncon | S j => nline j end.
Definition T (p : point) : R := match fst p with O => tcon (snd p) | S j => tline j (snd p) end.
Definition err (p : point) : R := match fst p with
  | O => ((fe_con (snd p) * fe_con (snd p) + syserr * syserr) / sigma / sigma)%R
  | S j => ((fe_line j (snd p) * fe_line j (snd p) + syserr_line j * syserr_line j) / sigma / sigma)%R
  end.
Notation nall := (total size nl).
Lemma start_line j : start size (S j) = ncon + psum nline 0 j.
Proof. rewrite start_shift. reflexivity. Qed.
Lemma start_con : start size 0 = 0. Proof. reflexivity. Qed.

Section Scalar.
Variable Slc : R -> R -> nat -> R.
Variable Sll : R -> R -> nat -> R.
Variable Sll2 : R -> R -> nat -> nat -> R.
Notation V := (sym_value tau Slc Sll Sll2 T).
Notation wr := (writes (okM size nl V err) (frM size nl)).
Lemma Vs p q : valid size nl p -> valid size nl q -> V p q = V q p.
Proof. intros _ _. apply sym_value_sym. Qed.

Lemma con_con_writes : wr (con_con ncon tcon fe_con error_mean_con pm idx_con nall) (fun k => fst (fst k) = 0 /\ fst (snd k) = 0 /\ snd (fst k) < ncon /\ snd (snd k) < ncon).
Proof.
  unfold con_con. eapply writes_weak; [|apply writes_for; [apply frM_refl|apply frM_trans|]].
  2:{ intros i I. apply writes_seq; [apply frM_trans| |].
      - apply writes_for; [apply frM_refl|apply frM_trans|]. intros j J. cbv zeta.
        apply (set4_writes size nl V err Vs (0, i) (0, j)); [split; cbn; lia|split; cbn; lia|intros X; injection X; lia|reflexivity|reflexivity|reflexivity].
      - apply (diag_writes size nl V err (0, i)); [split; cbn; lia|reflexivity| |reflexivity].
        unfold sym_value. cbn [fst snd]. rewrite Rminus_diag_eq, Rabs_R0 by reflexivity. unfold Rdiv. rewrite Ropp_0, Rmult_0_l, exp_0. reflexivity. }
  intros [[c i] [d m]] (H1 & H2 & H3 & H4). cbn [fst snd] in *. subst.
  destruct (Nat.lt_trichotomy i m) as [L|[->|L]].
  - exists m. split; [lia|]. left. exists i. split; [lia|]. right. reflexivity.
  - exists m. split; [lia|]. right. reflexivity.
  - exists i. split; [lia|]. left. exists m. split; [lia|]. left. reflexivity.
Qed.

Lemma con_line_writes : wr (con_line ncon tcon nl nline tline Slc nall)
  (fun k => (fst (fst k) = 0 /\ snd (fst k) < ncon /\ valid size nl (snd k) /\ fst (snd k) <> 0) \/
            (fst (snd k) = 0 /\ snd (snd k) < ncon /\ valid size nl (fst k) /\ fst (fst k) <> 0)).
Proof.
  unfold con_line. eapply writes_weak; [|apply writes_for; [apply frM_refl|apply frM_trans|]].
  2:{ intros i I s. cbv zeta. rewrite for_pos_eq. cbn [snd]. revert s.
      apply writes_for; [apply frM_refl|apply frM_trans|]. intros j J.
      apply writes_for; [apply frM_refl|apply frM_trans|]. intros m Hm. cbv zeta. rewrite Nat.sub_0_r, <- start_line.
      apply (set4_writes size nl V err Vs (0, i) (S j, m)); [split; cbn; lia|split; cbn; lia|intros X; injection X; lia| | |reflexivity];
      unfold adr, pos; cbn [fst snd]; rewrite start_con; lia. }
  intros [[c i] [d m]] [(H1 & H2 & [H3 H4] & H5)|(H1 & H2 & [H3 H4] & H5)]; cbn [fst snd] in *; subst.
  - destruct d as [|j]; [lia|]. cbn [size] in H4. exists i. split; [lia|]. exists j. split; [lia|]. exists m. split; [lia|]. left. reflexivity.
  - destruct c as [|j]; [lia|]. cbn [size] in H4. exists m. split; [lia|]. exists j. split; [lia|]. exists i. split; [lia|]. right. reflexivity.
Qed.

Lemma line_line_writes : wr (line_line ncon nl nline tline fe_line error_mean_line pm idx_con idx_line Sll Sll2 nall)
  (fun k => valid size nl (fst k) /\ valid size nl (snd k) /\ fst (fst k) <> 0 /\ fst (snd k) <> 0).
Proof.
  unfold line_line. intros s. rewrite for_pos_eq. cbn [snd]. revert s.
  eapply writes_weak; [|apply writes_for; [apply frM_refl|apply frM_trans|]].
  2:{ intros j J. apply writes_for; [apply frM_refl|apply frM_trans|]. intros i I s. cbv zeta.
      rewrite for_pos_eq, Nat.sub_0_r, <- start_line. cbn [snd]. revert s.
      apply (writes_seq _ _ (frM_trans size nl) (fun s => set_diag _ _ _ (for_ _ _ _ s))).
      - apply (writes_seq _ _ (frM_trans size nl) (fun s => for_ _ _ _ s)).
        + apply writes_for; [apply frM_refl|apply frM_trans|]. intros m Hm.
          apply (set4_writes size nl V err Vs (S j, i) (S j, m)); [split; cbn; lia|split; cbn; lia|intros X; injection X; lia|reflexivity|reflexivity|].
          unfold sym_value, T. cbn [fst snd]. rewrite Nat.ltb_irrefl. destruct (Nat.leb_spec m i); [reflexivity|lia].
        + apply (diag_writes size nl V err (S j, i)); [split; cbn; lia|reflexivity| |reflexivity].
          unfold sym_value, T. cbn [fst snd]. rewrite Nat.ltb_irrefl, Nat.leb_refl. reflexivity.
      - apply writes_for; [apply frM_refl|apply frM_trans|]. intros l L. apply writes_for; [apply frM_refl|apply frM_trans|]. intros m Hm.
        change (nline j) with (size (S j)). change (psum nline) with (psum (fun k => size (S k))). rewrite start_later by lia.
        apply (set4_writes size nl V err Vs (S j, i) (S l, m)); [split; cbn; lia|split; cbn; lia|intros X; injection X; lia| | |];
        unfold adr, pos; cbn [fst snd]; try lia.
        unfold sym_value, T. cbn [fst snd]. destruct (Nat.ltb_spec j l); [reflexivity|lia]. }
  intros [[c i] [d m]] ([H1 H2] & [H3 H4] & H5 & H6); cbn [fst snd] in *. destruct c as [|j], d as [|l]; try lia. cbn [size] in *.
  destruct (Nat.lt_trichotomy j l) as [L|[->|L]].
  - exists j. split; [lia|]. exists i. split; [lia|]. right. exists l. split; [lia|]. exists m. split; [lia|]. left. reflexivity.
  - exists l. split; [lia|]. destruct (Nat.lt_trichotomy i m) as [M|[->|M]].
    + exists m. split; [lia|]. left. left. exists i. split; [lia|]. right. reflexivity.
    + exists m. split; [lia|]. left. right. reflexivity.
    + exists i. split; [lia|]. left. left. exists m. split; [lia|]. left. reflexivity.
  - exists l. split; [lia|]. exists m. split; [lia|]. right. exists j. split; [lia|]. exists i. split; [lia|]. right. reflexivity.
Qed.

Theorem Pmat_spec M : let M' := set_covar_Pmat_data_line ncon tcon fe_con error_mean_con nl nline tline fe_line error_mean_line pm idx_con idx_line Slc Sll Sll2 nall M in
  frM size nl M M' /\ forall p q, valid size nl p -> valid size nl q ->
    snd M' (adr size nl p q) = V p q /\ fst M' (adr size nl p q) = (V p q + dg err p q)%R.
Proof.
  cbv zeta. unfold set_covar_Pmat_data_line.
  pose proof (writes_seq _ _ (frM_trans size nl) _ _ _ _ (writes_seq _ _ (frM_trans size nl) _ _ _ _ con_con_writes con_line_writes) line_line_writes M) as [F O].
  split; [exact F|]. intros p q P Q. refine (O (p, q) (or_introl _) P Q). cbn [fst snd].
  destruct p as [c i], q as [d m]. destruct P as [P1 P2], Q as [Q1 Q2]. unfold valid. cbn [fst snd] in *.
  destruct c as [|j], d as [|l]; cbn [size] in *.
  - left. left. lia.
  - left. right. left. cbn. lia.
  - left. right. right. cbn. lia.
  - right. cbn. lia.
Qed.
End Scalar.
End Assemble.
