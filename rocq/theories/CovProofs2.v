(** The array version, and the matrices with reconstruction points. *)
From Coq Require Import Reals Lra Lia Arith List Bool.
From Verif Require Import SemisepModel SemisepProofs CovModel CovProofs.
Import ListNotations.
Open Scope nat_scope.

Section Assemble.
Variable ncon : nat.
Variable tcon fe_con : arr.
Variable error_mean_con : R.
Variable nl : nat.
Variable nline : nat -> nat.
Variable tline fe_line : nat -> arr.
Variable error_mean_line : nat -> R.
Variable pm : arr.
Variable idx_con : nat.
Variable idx_line : nat -> nat.
Notation tau := (tau pm idx_con).
Notation sigma := (sigma pm idx_con).
Notation size := (size ncon nline).
Notation T := (T tcon tline).
Notation err := (err fe_con error_mean_con fe_line error_mean_line pm idx_con idx_line).
Variable Slc : R -> R -> nat -> R.
Variable Sll : R -> R -> nat -> R.
Variable Sll2 : R -> R -> nat -> nat -> R.

Section Array.
Notation nall := (total size nl).
Notation V := (sym_value tau Slc Sll Sll2 T).
Notation wr := (writes (okM size nl V err) (frM size nl)).
Variable Slc_array : arr -> nat -> arr -> nat -> nat -> arr -> arr.
Variable Sll_array : arr -> nat -> nat -> arr -> arr.
Variable Sll2_array : arr -> nat -> arr -> nat -> nat -> nat -> arr -> arr.
Hypothesis Slc_ok : forall t1 n1 t2 n2 l B i m, i < n1 -> m < n2 -> Slc_array t1 n1 t2 n2 l B (i * n2 + m) = Slc (t1 i) (t2 m) l.
Hypothesis Sll_ok : forall t1 n1 l B i m, i < n1 -> m <= i -> Sll_array t1 n1 l B (i * n1 + m) = Sll (t1 i) (t1 m) l.
Hypothesis Sll2_ok : forall t1 n1 t2 n2 l1 l2 B i m, i < n1 -> m < n2 -> Sll2_array t1 n1 t2 n2 l1 l2 B (i * n2 + m) = Sll2 (t1 i) (t2 m) l1 l2.

(** matrices together with a buffer *)
Definition okx (x : mats * arr) k := okM size nl V err (fst x) k.
Definition frx (x y : mats * arr) := frM size nl (fst x) (fst y).
Lemma frx_refl x : frx x x. Proof. apply frM_refl. Qed.
Lemma frx_trans a b c : frx a b -> frx b c -> frx a c. Proof. apply frM_trans. Qed.
Notation wx := (writes okx frx).
Lemma lift_x (f : arr -> mats -> mats) (g : arr -> arr) C : (forall B, writes (okM size nl V err) (frM size nl) (f (g B)) C) ->
  wx (fun x => let '(M, B) := x in let B := g B in (f B M, B)) C.
Proof. intros H [M B]. exact (H B M). Qed.
Lemma VsA p q : valid size nl p -> valid size nl q -> V p q = V q p.
Proof. intros _ _. apply sym_value_sym. Qed.

Lemma con_line_array_writes : wx (fun x => con_line_array ncon tcon nl nline tline Slc_array nall (fst x) (snd x))
  (fun k => (fst (fst k) = 0 /\ snd (fst k) < ncon /\ valid size nl (snd k) /\ fst (snd k) <> 0) \/
            (fst (snd k) = 0 /\ snd (snd k) < ncon /\ valid size nl (fst k) /\ fst (fst k) <> 0)).
Proof.
  intros s. unfold con_line_array. rewrite for_pos_eq. cbn [snd]. rewrite <- surjective_pairing. revert s.
  eapply writes_weak; [|apply writes_for; [apply frx_refl|apply frx_trans|]].
  2:{ intros j J. rewrite Nat.sub_0_r, <- start_line.
      apply (lift_x (fun B M => for_ 0 ncon (fun i M => for_ 0 (nline j) (fun m M => set4 _ _ (B (i * nline j + m)) M) M) M) (Slc_array tcon ncon (tline j) (nline j) j)).
      intros B. apply writes_for; [apply frM_refl|apply frM_trans|]. intros i I.
      apply writes_for; [apply frM_refl|apply frM_trans|]. intros m Hm. rewrite Slc_ok by lia.
      apply (set4_writes size nl V err VsA (0, i) (S j, m));
      [split; cbn; lia|split; cbn; lia|intros X; injection X; lia| | |reflexivity];
      unfold adr, pos; cbn [fst snd]; rewrite start_con; lia. }
  intros [[c i] [d m]] [(H1 & H2 & [H3 H4] & H5)|(H1 & H2 & [H3 H4] & H5)]; cbn [fst snd] in *; subst.
  - destruct d as [|j]; [lia|]. cbn [CovProofs.size] in H4. exists j. split; [lia|]. exists i. split; [lia|]. exists m. split; [lia|]. left. reflexivity.
  - destruct c as [|j]; [lia|]. cbn [CovProofs.size] in H4. exists j. split; [lia|]. exists m. split; [lia|]. exists i. split; [lia|]. right. reflexivity.
Qed.

Definition self_block (j : nat) (B : arr) (M : mats) : mats :=
  for_ 0 (nline j) (fun i M =>
    let M := for_ 0 i (fun m M =>
      set4 ((start size (S j) + i) * nall + (start size (S j) + m)) ((start size (S j) + m) * nall + (start size (S j) + i)) (B (i * nline j + m)) M) M in
    let error := (fe_line j i * fe_line j i + syserr_line error_mean_line pm idx_line j * syserr_line error_mean_line pm idx_line j)%R in
    set_diag ((start size (S j) + i) * nall + (start size (S j) + i)) (B (i * nline j + i)) (error / sigma / sigma)%R M) M.
Lemma line_line_array_writes : wx (fun x => line_line_array ncon nl nline tline fe_line error_mean_line pm idx_con idx_line Sll_array Sll2_array nall (fst x) (snd x))
  (fun k => valid size nl (fst k) /\ valid size nl (snd k) /\ fst (fst k) <> 0 /\ fst (snd k) <> 0).
Proof.
  intros s. unfold line_line_array. rewrite for_pos_eq. cbn [snd]. rewrite <- surjective_pairing. revert s.
  eapply writes_weak; [|apply writes_for; [apply frx_refl|apply frx_trans|]].
  2:{ intros j J. rewrite Nat.sub_0_r, <- start_line.
      intros [M B]. rewrite for_pos_eq. cbn [snd].
      refine (writes_seq okx frx frx_trans (fun x => let '(M, B) := x in let B := Sll_array (tline j) (nline j) j B in (self_block j B M, B)) _ _ _ _ _ (M, B)).
      - apply (lift_x (self_block j) (Sll_array (tline j) (nline j) j)). intros B'. unfold self_block.
        apply writes_for; [apply frM_refl|apply frM_trans|]. intros i I.
        apply (writes_seq _ _ (frM_trans size nl) (fun s => for_ _ _ _ s)).
        + apply writes_for; [apply frM_refl|apply frM_trans|]. intros m Hm. rewrite Sll_ok by lia.
          apply (set4_writes size nl V err VsA (S j, i) (S j, m)); [split; cbn; lia|split; cbn; lia|intros X; injection X; lia|reflexivity|reflexivity|].
          unfold sym_value, CovProofs.T. cbn [fst snd]. rewrite Nat.ltb_irrefl. destruct (Nat.leb_spec m i); [reflexivity|lia].
        + rewrite Sll_ok by lia. apply (diag_writes size nl V err (S j, i)); [split; cbn; lia|reflexivity| |reflexivity].
          unfold sym_value, CovProofs.T. cbn [fst snd]. rewrite Nat.ltb_irrefl, Nat.leb_refl. reflexivity.
      - apply writes_for; [apply frx_refl|apply frx_trans|]. intros l L.
        change (nline j) with (size (S j)). change (psum nline) with (psum (fun k => size (S k))). rewrite start_later by lia.
        apply (lift_x (fun B M => for_ 0 (size (S j)) (fun i M => for_ 0 (nline l) (fun m M => set4 _ _ (B (i * nline l + m)) M) M) M) (Sll2_array (tline j) (size (S j)) (tline l) (nline l) j l)).
        intros B'. apply writes_for; [apply frM_refl|apply frM_trans|]. intros i I.
        apply writes_for; [apply frM_refl|apply frM_trans|]. intros m Hm. cbn [CovProofs.size] in I. rewrite Sll2_ok by (cbn [CovProofs.size]; lia).
        apply (set4_writes size nl V err VsA (S j, i) (S l, m)); [split; cbn; lia|split; cbn; lia|intros X; injection X; lia| | |];
        unfold adr, pos; cbn [fst snd]; try lia.
        unfold sym_value, CovProofs.T. cbn [fst snd]. destruct (Nat.ltb_spec j l); [reflexivity|lia]. }
  intros [[c i] [d m]] ([H1 H2] & [H3 H4] & H5 & H6); cbn [fst snd] in *. destruct c as [|j], d as [|l]; try lia. cbn [CovProofs.size] in *.
  destruct (Nat.lt_trichotomy j l) as [L|[->|L]].
  - exists j. split; [lia|]. right. exists l. split; [lia|]. exists i. split; [lia|]. exists m. split; [lia|]. left. reflexivity.
  - exists l. split; [lia|]. left. destruct (Nat.lt_trichotomy i m) as [M|[->|M]].
    + exists m. split; [lia|]. left. exists i. split; [lia|]. right. reflexivity.
    + exists m. split; [lia|]. right. reflexivity.
    + exists i. split; [lia|]. left. exists m. split; [lia|]. left. reflexivity.
  - exists l. split; [lia|]. right. exists j. split; [lia|]. exists m. split; [lia|]. exists i. split; [lia|]. right. reflexivity.
Qed.

Theorem Pmat_array_spec M Smat_lc Smat_ll :
  let M' := set_covar_Pmat_data_line_array ncon tcon fe_con error_mean_con nl nline tline fe_line error_mean_line pm idx_con idx_line
     Slc_array Sll_array Sll2_array nall M Smat_lc Smat_ll in
  frM size nl M M' /\ forall p q, valid size nl p -> valid size nl q ->
    snd M' (adr size nl p q) = V p q /\ fst M' (adr size nl p q) = (V p q + dg err p q)%R.
Proof.
  cbv zeta. unfold set_covar_Pmat_data_line_array.
  destruct (con_con_writes ncon tcon fe_con error_mean_con nl nline tline fe_line error_mean_line pm idx_con idx_line Slc Sll Sll2 M) as [F1 O1].
  set (M1 := con_con _ _ _ _ _ _ _ M) in *.
  destruct (con_line_array_writes (M1, Smat_lc)) as [F2 O2]. unfold okx, frx in F2, O2. cbn [fst snd] in F2, O2.
  set (M2 := fst (con_line_array _ _ _ _ _ _ _ M1 Smat_lc)) in *.
  destruct (line_line_array_writes (M2, Smat_ll)) as [F3 O3]. unfold okx, frx in F3, O3. cbn [fst snd] in F3, O3.
  set (M3 := fst (line_line_array _ _ _ _ _ _ _ _ _ _ _ _ M2 Smat_ll)) in *.
  split; [eapply frM_trans; [exact F1|eapply frM_trans; [exact F2|exact F3]]|].
  intros p q P Q. assert (G : okM size nl V err M3 (p, q)); [|exact (G P Q)].
  destruct p as [c i], q as [d m]. destruct P as [P1 P2], Q as [Q1 Q2]. cbn [fst snd] in *.
  destruct c as [|j], d as [|l]; cbn [CovProofs.size] in *.
  - apply O3. right. apply O2. right. apply O1. left. cbn. lia.
  - apply O3. right. apply O2. left. left. unfold valid. cbn. lia.
  - apply O3. right. apply O2. left. right. unfold valid. cbn. lia.
  - apply O3. left. unfold valid. cbn. lia.
Qed.
End Array.

(** ** Reconstruction points: nrec and trec *)
Section Rec.
Variable nrec : nat -> nat.
Variable trec : arr.
Definition Trec (p : point) : R := trec (pos nrec p).
Lemma rec_line k : start nrec (S k) = nrec 0 + psum (fun k => nrec (1 + k)) 0 k.
Proof. rewrite start_shift. reflexivity. Qed.

Section U.
Notation V := (rect_value tau Slc Sll Sll2 Trec T).
Notation wu := (writes (ok1 nrec size nl V) (fr1 nrec size nl)).
Notation ncol := (total size nl).
Ltac inn := intros; first [apply fr1_refl|eapply fr1_trans; eassumption|assumption].
Lemma wu_for lo n body (C : nat -> point * point -> Prop) : (forall i, lo <= i < lo + n -> wu (body i) (C i)) ->
  wu (for_ lo n body) (fun k => exists i, lo <= i < lo + n /\ C i k).
Proof. apply writes_for; inn. Qed.
Lemma wu_seq f g (C D : point * point -> Prop) : wu f C -> wu g D -> wu (fun s => g (f s)) (fun k => C k \/ D k).
Proof. apply writes_seq. inn. Qed.

Definition Urow (p : point) (k : point * point) : Prop := fst k = p /\ valid size nl (snd k).
Theorem Umat_spec U : let U' := set_covar_Umat_line ncon tcon nl nline tline pm idx_con Slc Sll Sll2 ncol nrec trec U in
  fr1 nrec size nl U U' /\ forall p q, valid nrec nl p -> valid size nl q -> U' (adr2 nrec size nl p q) = V p q.
Proof.
  cbv zeta. unfold set_covar_Umat_line.
  match goal with |- fr1 _ _ _ U (snd (for_pos _ _ _ ?b2 _ (for_ 0 _ ?b1 U))) /\ _ => set (B1 := b1); set (B2 := b2) end.
  rewrite for_pos_eq. cbn [snd].
  assert (W1 : wu (for_ 0 (nrec 0) B1) (fun k => exists i, 0 <= i < 0 + nrec 0 /\ Urow (0, i) k)).
  { apply wu_for. intros i I s. unfold B1. cbv zeta. rewrite for_pos_eq. cbn [snd]. revert s.
    eapply writes_weak; [|apply (wu_seq (fun s => for_ _ _ _ s))].
    2:{ apply wu_for. intros j J. apply (upd_writes nrec size nl V (0, i) (0, j)); [split; cbn; lia|split; cbn; lia| |];
        reflexivity. }
    2:{ apply wu_for. intros k K. apply wu_for. intros j J.
        rewrite Nat.sub_0_r, <- start_line. apply (upd_writes nrec size nl V (0, i) (S k, j)); [split; cbn; lia|split; cbn; lia| |reflexivity].
        unfold adr2, pos; cbn [fst snd]. change (start nrec 0) with 0. lia. }
    intros [p [d m]] [E [D M]]. cbn [fst snd] in *. subst p. destruct d as [|k]; cbn [CovProofs.size] in M.
    - left. exists m. split; [lia|]. reflexivity.
    - right. exists k. split; [lia|]. exists m. split; [lia|]. reflexivity. }
  assert (W2 : wu (for_ 0 nl (fun j => B2 j (nrec 0 + psum (fun k => nrec (1 + k)) 0 (j - 0))))
     (fun k => exists j, 0 <= j < 0 + nl /\ exists i, 0 <= i < 0 + nrec (1 + j) /\ Urow (S j, i) k)).
  { apply wu_for. intros k K. rewrite Nat.sub_0_r, <- rec_line. unfold B2. apply wu_for. intros i I.
    eapply writes_weak.
    2:{ intros s. cbv zeta. rewrite for_pos_eq. cbv beta iota zeta. rewrite for_pos_eq. cbn [snd]. revert s.
        apply (wu_seq (fun s => for_ _ _ _ (for_ _ _ _ (for_ _ _ _ s)))).
        - apply (wu_seq (fun s => for_ _ _ _ (for_ _ _ _ s))).
          + apply (wu_seq (fun s => for_ _ _ _ s)).
            * apply wu_for. intros j J. apply (upd_writes nrec size nl V (S k, i) (0, j)); [split; cbn in *; lia|split; cbn; lia| |reflexivity].
              unfold adr2, pos; cbn [fst snd]. rewrite start_con. lia.
            * apply wu_for. intros m Hm. apply wu_for. intros j J. rewrite Nat.sub_0_r, <- start_line.
              apply (upd_writes nrec size nl V (S k, i) (S m, j)); [split; cbn in *; lia|split; cbn; lia| |].
              -- unfold adr2, pos; cbn [fst snd]. lia.
              -- unfold rect_value, Trec, CovProofs.T, pos; cbn [fst snd]. destruct (Nat.eqb_spec k m); [lia|reflexivity].
          + apply wu_for. intros j J. rewrite <- start_line.
            apply (upd_writes nrec size nl V (S k, i) (S k, j)); [split; cbn in *; lia|split; cbn; lia| |].
            * unfold adr2, pos; cbn [fst snd]. lia.
            * unfold rect_value, Trec, CovProofs.T, pos; cbn [fst snd]. rewrite Nat.eqb_refl. reflexivity.
        - apply wu_for. intros m Hm. apply wu_for. intros j J. rewrite <- start_line.
          change (nline k) with (size (S k)). change (psum nline) with (psum (fun k => size (S k))). rewrite start_later by lia.
          apply (upd_writes nrec size nl V (S k, i) (S m, j)); [split; cbn in *; lia|split; cbn; lia| |].
          + unfold adr2, pos; cbn [fst snd]. lia.
          + unfold rect_value, Trec, CovProofs.T, pos; cbn [fst snd]. destruct (Nat.eqb_spec k m); [lia|reflexivity]. }
    intros [p [d m]] [E [D M]]. cbn [fst snd] in *. subst p. destruct d as [|l]; cbn [CovProofs.size] in M.
    - left. left. left. exists m. split; [lia|]. reflexivity.
    - destruct (Nat.lt_trichotomy l k) as [L|[->|L]].
      + left. left. right. exists l. split; [lia|]. exists m. split; [lia|]. reflexivity.
      + left. right. exists m. split; [lia|]. reflexivity.
      + right. exists l. split; [lia|]. exists m. split; [lia|]. reflexivity. }
  destruct (wu_seq _ _ _ _ W1 W2 U) as [F O]. split; [exact F|].
  intros p q P Q. refine (O (p, q) (or_introl _) P Q). destruct p as [c i]. destruct P as [P1 P2]. cbn [fst snd] in *.
  destruct c as [|j]; [left; exists i|right; exists j; split; [lia|]; exists i]; (split; [cbn; lia|split; [reflexivity|exact Q]]).
Qed.
End U.

Section A.
Notation V := (sym_value tau Slc Sll Sll2 Trec).
Notation wa := (writes (ok1 nrec nrec nl V) (fr1 nrec nrec nl)).
Notation ntall := (total nrec nl).
Ltac inn := intros; first [apply fr1_refl|eapply fr1_trans; eassumption|assumption].
Lemma wa_for lo n body (C : nat -> point * point -> Prop) : (forall i, lo <= i < lo + n -> wa (body i) (C i)) ->
  wa (for_ lo n body) (fun k => exists i, lo <= i < lo + n /\ C i k).
Proof. apply writes_for; inn. Qed.
Lemma wa_seq f g (C D : point * point -> Prop) : wa f C -> wa g D -> wa (fun s => g (f s)) (fun k => C k \/ D k).
Proof. apply writes_seq. inn. Qed.
Lemma set2_writes p q a b v : valid nrec nl p -> valid nrec nl q -> a = adr2 nrec nrec nl p q -> b = adr2 nrec nrec nl q p -> v = V p q ->
  wa (set2 a b v) (fun k => k = (p, q) \/ k = (q, p)).
Proof.
  intros P Q -> -> ->. unfold set2. eapply writes_weak; [|apply (wa_seq (fun M => upd M _ _) (fun M => upd M _ _))].
  2:{ apply (upd_writes nrec nrec nl V q p); auto. apply sym_value_sym. }
  2:{ apply (upd_writes nrec nrec nl V p q); auto. }
  intros k [H|H]; auto.
Qed.
Lemma ntall_eq : for_ 0 nl (fun i n => n + nrec (i + 1)) (nrec 0) = ntall.
Proof.
  unfold total. rewrite rec_line. induction nl as [|n IH]; [cbn; lia|]. rewrite for_snoc, IH. cbn [psum]. rewrite Nat.add_0_l, (Nat.add_comm n 1). lia.
Qed.
Theorem Amat_spec A : let A' := set_covar_Amat_line nl pm idx_con Slc Sll Sll2 nrec trec A in
  fr1 nrec nrec nl A A' /\ forall p q, valid nrec nl p -> valid nrec nl q -> A' (adr2 nrec nrec nl p q) = V p q.
Proof.
  cbv zeta. unfold set_covar_Amat_line. rewrite ntall_eq.
  match goal with |- fr1 _ _ _ A (snd (for_pos _ _ _ ?b2 _ (for_ 0 _ ?b1 A))) /\ _ => set (B1 := b1); set (B2 := b2) end.
  rewrite for_pos_eq. cbn [snd].
  assert (W1 : wa (for_ 0 (nrec 0) B1) (fun k => (fst (fst k) = 0 \/ fst (snd k) = 0) /\ valid nrec nl (fst k) /\ valid nrec nl (snd k))).
  { eapply writes_weak; [|apply wa_for].
    2:{ intros i I s. unfold B1. cbv zeta. rewrite for_pos_eq. cbn [snd]. revert s. apply (wa_seq (fun s => upd (for_ _ _ _ s) _ _)).
        - apply (wa_seq (fun s => for_ _ _ _ s) (fun s => upd s _ _)).
          + apply wa_for. intros j J. apply (set2_writes (0, i) (0, j)); [split; cbn; lia|split; cbn; lia|reflexivity..].
          + apply (upd_writes nrec nrec nl V (0, i) (0, i)); [split; cbn; lia|split; cbn; lia|reflexivity|].
            unfold sym_value. cbn [fst snd]. rewrite Rminus_diag_eq, Rabs_R0 by reflexivity. unfold Rdiv. rewrite Ropp_0, Rmult_0_l, exp_0. reflexivity.
        - apply wa_for. intros k K. apply wa_for. intros j J.
          rewrite Nat.sub_0_r, <- rec_line. apply (set2_writes (0, i) (S k, j)); [split; cbn; lia|split; cbn in *; lia| | |reflexivity];
          unfold adr2, pos; cbn [fst snd]; change (start nrec 0) with 0; lia. }
    intros [[c i] [d m]] ([H|H] & [P1 P2] & [Q1 Q2]); cbn [fst snd] in *; subst.
    - destruct d as [|l].
      + destruct (Nat.lt_trichotomy i m) as [L|[->|L]].
        * exists m. split; [lia|]. left. left. exists i. split; [lia|]. right. reflexivity.
        * exists m. split; [lia|]. left. right. reflexivity.
        * exists i. split; [lia|]. left. left. exists m. split; [lia|]. left. reflexivity.
      + exists i. split; [lia|]. right. exists l. split; [lia|]. exists m. split; [cbn; lia|]. left. reflexivity.
    - destruct c as [|l].
      + destruct (Nat.lt_trichotomy i m) as [L|[->|L]].
        * exists m. split; [lia|]. left. left. exists i. split; [lia|]. right. reflexivity.
        * exists m. split; [lia|]. left. right. reflexivity.
        * exists i. split; [lia|]. left. left. exists m. split; [lia|]. left. reflexivity.
      + exists m. split; [lia|]. right. exists l. split; [lia|]. exists i. split; [cbn; lia|]. right. reflexivity. }
  assert (W2 : wa (for_ 0 nl (fun j => B2 j (nrec 0 + psum (fun k => nrec (1 + k)) 0 (j - 0))))
     (fun k => fst (fst k) <> 0 /\ fst (snd k) <> 0 /\ valid nrec nl (fst k) /\ valid nrec nl (snd k))).
  { eapply writes_weak; [|apply wa_for].
    2:{ intros k K. rewrite Nat.sub_0_r, <- rec_line. unfold B2. apply wa_for. intros j J s. cbv zeta. rewrite for_pos_eq. cbn [snd]. revert s.
        apply (wa_seq (fun s => upd (for_ _ _ _ s) _ _)).
        - apply (wa_seq (fun s => for_ _ _ _ s) (fun s => upd s _ _)).
          + apply wa_for. intros i I. apply (set2_writes (S k, j) (S k, i)); [split; cbn in *; lia|split; cbn in *; lia| | |];
            unfold adr2, pos; cbn [fst snd]; try lia.
            unfold sym_value, Trec, pos. cbn [fst snd]. rewrite Nat.ltb_irrefl. destruct (Nat.leb_spec i j); [reflexivity|lia].
          + apply (upd_writes nrec nrec nl V (S k, j) (S k, j)); [split; cbn in *; lia|split; cbn in *; lia| |].
            * unfold adr2, pos; cbn [fst snd]; lia.
            * unfold sym_value, Trec, pos. cbn [fst snd]. rewrite Nat.ltb_irrefl, Nat.leb_refl. reflexivity.
        - apply wa_for. intros m Hm. apply wa_for. intros i I.
          change (psum (fun m => nrec (1 + m))) with (psum (fun k => nrec (S k))). change (1 + k) with (S k). rewrite start_later by lia.
          apply (set2_writes (S k, j) (S m, i)); [split; cbn in *; lia|split; cbn in *; lia| | |];
          unfold adr2, pos; cbn [fst snd]; try lia.
          unfold sym_value, Trec, pos. cbn [fst snd]. destruct (Nat.ltb_spec k m); [reflexivity|lia]. }
    intros [[c i] [d m]] (H1 & H2 & [P1 P2] & [Q1 Q2]); cbn [fst snd] in *. destruct c as [|j], d as [|l]; try lia.
    destruct (Nat.lt_trichotomy j l) as [L|[->|L]].
    - exists j. split; [lia|]. exists i. split; [cbn; lia|]. right. exists l. split; [lia|]. exists m. split; [cbn; lia|]. left. reflexivity.
    - exists l. split; [lia|]. destruct (Nat.lt_trichotomy i m) as [M|[->|M]].
      + exists m. split; [cbn; lia|]. left. left. exists i. split; [lia|]. right. reflexivity.
      + exists m. split; [cbn; lia|]. left. right. reflexivity.
      + exists i. split; [cbn; lia|]. left. left. exists m. split; [lia|]. left. reflexivity.
    - exists l. split; [lia|]. exists m. split; [cbn; lia|]. right. exists j. split; [lia|]. exists i. split; [cbn; lia|]. right. reflexivity. }
  destruct (wa_seq _ _ _ _ W1 W2 A) as [F O]. split; [exact F|].
  intros p q P Q. refine (O (p, q) (or_introl _) P Q). cbn [fst snd]. destruct (Nat.eq_dec (fst p) 0); [left; auto|].
  destruct (Nat.eq_dec (fst q) 0); [left; auto|right; auto].
Qed.
End A.
End Rec.
End Assemble.
