(** What the matrices of one component hold, and what the decomposition computes from
    them. *)
From Coq Require Import Reals Lra Lia Arith List Bool.
From Verif Require Import SemisepModel SemisepProofs CovModel CovProofs CovProofs2 DecompModel.
Import ListNotations.
Open Scope nat_scope.

Section Assemble.
Variable ncon : nat.
Variable tcon : arr.
Variable nl : nat.
Variable nline : nat -> nat.
Variable tline : nat -> arr.
Variable pm : arr.
Variable idx_con : nat.
Notation tau := (tau pm idx_con).
Notation size := (size ncon nline).
Notation T := (T tcon tline).
Variable Slc : R -> R -> nat -> R.
Variable Slc1 : R -> R -> nat -> R.
Variable Sll1 : R -> R -> nat -> R.
Variable Sll21 : R -> R -> nat -> nat -> R.
Variable Sself : R -> R -> nat -> R.

(** a target point (the continuum or one component) with a data point *)
Definition single_value (Tr Td : point -> R) (p q : point) : R :=
  match fst p, fst q with
  | O, O => exp (- Rabs (Tr p - Td q) / tau)
  | O, S l => Slc (Tr p) (Td q) l
  | S j, O => Slc1 (Td q) (Tr p) j
  | S j, S l => if j =? l then Sll1 (Tr p) (Td q) j else Sll21 (Tr p) (Td q) j l
  end%R.
(** the matrix of the targets themselves; only its diagonal is read *)
Definition self_value (Tr : point -> R) (p q : point) : R :=
  match point_dec p q with
  | left _ => match fst p with O => exp (- Rabs (Tr p - Tr q) / tau) | S j => Sself (Tr p) (Tr p) j end
  | right _ => sym_value tau Slc Sll1 Sll21 Tr p q
  end%R.
Lemma self_value_sym Tr p q : self_value Tr p q = self_value Tr q p.
Proof.
  unfold self_value. destruct (point_dec p q) as [E|N].
  - subst q. destruct (point_dec p p); congruence.
  - destruct (point_dec q p) as [E|N']; [congruence|]. apply sym_value_sym.
Qed.
Lemma self_ne Tr p q : p <> q -> self_value Tr p q = sym_value tau Slc Sll1 Sll21 Tr p q.
Proof. intros N. unfold self_value. destruct (point_dec p q); congruence. Qed.
Lemma self_eq Tr p : self_value Tr p p = match fst p with O => exp (- Rabs (Tr p - Tr p) / tau) | S j => Sself (Tr p) (Tr p) j end%R.
Proof. unfold self_value. destruct (point_dec p p); congruence. Qed.
Ltac apart := rewrite self_ne by (let X := fresh in intros X; injection X; lia).

Section Rec.
Variable nrec : nat -> nat.
Variable trec : arr.
Notation Trec := (Trec nrec trec).
Notation rec_line := (rec_line nrec).
Section U.
Notation V := (single_value Trec T).
Notation wu := (writes (ok1 nrec size nl V) (fr1 nrec size nl)).
Notation ncol := (total size nl).
Ltac inn := intros; first [apply fr1_refl|eapply fr1_trans; eassumption|assumption].
Lemma wu_for1 lo n body (C : nat -> point * point -> Prop) : (forall i, lo <= i < lo + n -> wu (body i) (C i)) ->
  wu (for_ lo n body) (fun k => exists i, lo <= i < lo + n /\ C i k).
Proof. apply writes_for; inn. Qed.
Lemma wu_seq1 f g (C D : point * point -> Prop) : wu f C -> wu g D -> wu (fun s => g (f s)) (fun k => C k \/ D k).
Proof. apply writes_seq. inn. Qed.

Definition Urow1 (p : point) (k : point * point) : Prop := fst k = p /\ valid size nl (snd k).
Lemma Umat_single_spec U : let U' := set_covar_Umat_line_single ncon tcon nl nline tline pm idx_con Slc Slc1 Sll1 Sll21 ncol nrec trec U in
  fr1 nrec size nl U U' /\ forall p q, valid nrec nl p -> valid size nl q -> U' (adr2 nrec size nl p q) = V p q.
Proof.
  cbv zeta. unfold set_covar_Umat_line_single.
  match goal with |- fr1 _ _ _ U (snd (for_pos _ _ _ ?b2 _ (for_ 0 _ ?b1 U))) /\ _ => set (B1 := b1); set (B2 := b2) end.
  rewrite for_pos_eq. cbn [snd].
  assert (W1 : wu (for_ 0 (nrec 0) B1) (fun k => exists i, 0 <= i < 0 + nrec 0 /\ Urow1 (0, i) k)).
  { apply wu_for1. intros i I s. unfold B1. cbv zeta. rewrite for_pos_eq. cbn [snd]. revert s.
    eapply writes_weak; [|apply (wu_seq1 (fun s => for_ _ _ _ s))].
    2:{ apply wu_for1. intros j J. apply (upd_writes nrec size nl V (0, i) (0, j)); [split; cbn; lia|split; cbn; lia| |];
        reflexivity. }
    2:{ apply wu_for1. intros k K. apply wu_for1. intros j J.
        rewrite Nat.sub_0_r, <- start_line. apply (upd_writes nrec size nl V (0, i) (S k, j)); [split; cbn; lia|split; cbn; lia| |reflexivity].
        unfold adr2, pos; cbn [fst snd]. change (start nrec 0) with 0. lia. }
    intros [p [d m]] [E [D M]]. cbn [fst snd] in *. subst p. destruct d as [|k]; cbn [CovProofs.size] in M.
    - left. exists m. split; [lia|]. reflexivity.
    - right. exists k. split; [lia|]. exists m. split; [lia|]. reflexivity. }
  assert (W2 : wu (for_ 0 nl (fun j => B2 j (nrec 0 + psum (fun k => nrec (1 + k)) 0 (j - 0))))
     (fun k => exists j, 0 <= j < 0 + nl /\ exists i, 0 <= i < 0 + nrec (1 + j) /\ Urow1 (S j, i) k)).
  { apply wu_for1. intros k K. rewrite Nat.sub_0_r, <- rec_line. unfold B2. apply wu_for1. intros i I.
    eapply writes_weak.
    2:{ intros s. cbv zeta. rewrite for_pos_eq. cbv beta iota zeta. rewrite for_pos_eq. cbn [snd]. revert s.
        apply (wu_seq1 (fun s => for_ _ _ _ (for_ _ _ _ (for_ _ _ _ s)))).
        - apply (wu_seq1 (fun s => for_ _ _ _ (for_ _ _ _ s))).
          + apply (wu_seq1 (fun s => for_ _ _ _ s)).
            * apply wu_for1. intros j J. apply (upd_writes nrec size nl V (S k, i) (0, j)); [split; cbn in *; lia|split; cbn; lia| |reflexivity].
              unfold adr2, pos; cbn [fst snd]. rewrite start_con. lia.
            * apply wu_for1. intros m Hm. apply wu_for1. intros j J. rewrite Nat.sub_0_r, <- start_line.
              apply (upd_writes nrec size nl V (S k, i) (S m, j)); [split; cbn in *; lia|split; cbn; lia| |].
              -- unfold adr2, pos; cbn [fst snd]. lia.
              -- unfold single_value, CovProofs2.Trec, CovProofs.T, pos; cbn [fst snd]. destruct (Nat.eqb_spec k m); [lia|reflexivity].
          + apply wu_for1. intros j J. rewrite <- start_line.
            apply (upd_writes nrec size nl V (S k, i) (S k, j)); [split; cbn in *; lia|split; cbn; lia| |].
            * unfold adr2, pos; cbn [fst snd]. lia.
            * unfold single_value, CovProofs2.Trec, CovProofs.T, pos; cbn [fst snd]. rewrite Nat.eqb_refl. reflexivity.
        - apply wu_for1. intros m Hm. apply wu_for1. intros j J. rewrite <- start_line.
          change (nline k) with (size (S k)). change (psum nline) with (psum (fun k => size (S k))). rewrite start_later by lia.
          apply (upd_writes nrec size nl V (S k, i) (S m, j)); [split; cbn in *; lia|split; cbn; lia| |].
          + unfold adr2, pos; cbn [fst snd]. lia.
          + unfold single_value, CovProofs2.Trec, CovProofs.T, pos; cbn [fst snd]. destruct (Nat.eqb_spec k m); [lia|reflexivity]. }
    intros [p [d m]] [E [D M]]. cbn [fst snd] in *. subst p. destruct d as [|l]; cbn [CovProofs.size] in M.
    - left. left. left. exists m. split; [lia|]. reflexivity.
    - destruct (Nat.lt_trichotomy l k) as [L|[->|L]].
      + left. left. right. exists l. split; [lia|]. exists m. split; [lia|]. reflexivity.
      + left. right. exists m. split; [lia|]. reflexivity.
      + right. exists l. split; [lia|]. exists m. split; [lia|]. reflexivity. }
  destruct (wu_seq1 _ _ _ _ W1 W2 U) as [F O]. split; [exact F|].
  intros p q P Q. refine (O (p, q) (or_introl _) P Q). destruct p as [c i]. destruct P as [P1 P2]. cbn [fst snd] in *.
  destruct c as [|j]; [left; exists i|right; exists j; split; [lia|]; exists i]; (split; [cbn; lia|split; [reflexivity|exact Q]]).
Qed.
End U.

Section A.
Notation V := (self_value Trec).
Notation wa := (writes (ok1 nrec nrec nl V) (fr1 nrec nrec nl)).
Notation ntall := (total nrec nl).
Ltac inn := intros; first [apply fr1_refl|eapply fr1_trans; eassumption|assumption].
Lemma wa_for1 lo n body (C : nat -> point * point -> Prop) : (forall i, lo <= i < lo + n -> wa (body i) (C i)) ->
  wa (for_ lo n body) (fun k => exists i, lo <= i < lo + n /\ C i k).
Proof. apply writes_for; inn. Qed.
Lemma wa_seq1 f g (C D : point * point -> Prop) : wa f C -> wa g D -> wa (fun s => g (f s)) (fun k => C k \/ D k).
Proof. apply writes_seq. inn. Qed.
Lemma set2_writes1 p q a b v : valid nrec nl p -> valid nrec nl q -> a = adr2 nrec nrec nl p q -> b = adr2 nrec nrec nl q p -> v = V p q ->
  wa (set2 a b v) (fun k => k = (p, q) \/ k = (q, p)).
Proof.
  intros P Q -> -> ->. unfold set2. eapply writes_weak; [|apply (wa_seq1 (fun M => upd M _ _) (fun M => upd M _ _))].
  2:{ apply (upd_writes nrec nrec nl V q p); auto. apply self_value_sym. }
  2:{ apply (upd_writes nrec nrec nl V p q); auto. }
  intros k [H|H]; auto.
Qed.
Lemma Amat_single_spec A : let A' := set_covar_Amat_line_single nl pm idx_con Slc Sll1 Sll21 Sself nrec trec A in
  fr1 nrec nrec nl A A' /\ forall p q, valid nrec nl p -> valid nrec nl q -> A' (adr2 nrec nrec nl p q) = V p q.
Proof.
  cbv zeta. unfold set_covar_Amat_line_single. rewrite (ntall_eq nl nrec).
  match goal with |- fr1 _ _ _ A (snd (for_pos _ _ _ ?b2 _ (for_ 0 _ ?b1 A))) /\ _ => set (B1 := b1); set (B2 := b2) end.
  rewrite for_pos_eq. cbn [snd].
  assert (W1 : wa (for_ 0 (nrec 0) B1) (fun k => (fst (fst k) = 0 \/ fst (snd k) = 0) /\ valid nrec nl (fst k) /\ valid nrec nl (snd k))).
  { eapply writes_weak; [|apply wa_for1].
    2:{ intros i I s. unfold B1. cbv zeta. rewrite for_pos_eq. cbn [snd]. revert s. apply (wa_seq1 (fun s => upd (for_ _ _ _ s) _ _)).
        - apply (wa_seq1 (fun s => for_ _ _ _ s) (fun s => upd s _ _)).
          + apply wa_for1. intros j J. apply (set2_writes1 (0, i) (0, j)); [split; cbn; lia|split; cbn; lia|reflexivity|reflexivity|apart; reflexivity].
          + apply (upd_writes nrec nrec nl V (0, i) (0, i)); [split; cbn; lia|split; cbn; lia|reflexivity|].
            rewrite self_eq. cbn [fst snd]. rewrite Rminus_diag_eq, Rabs_R0 by reflexivity. unfold Rdiv. rewrite Ropp_0, Rmult_0_l, exp_0. reflexivity.
        - apply wa_for1. intros k K. apply wa_for1. intros j J.
          rewrite Nat.sub_0_r, <- rec_line. apply (set2_writes1 (0, i) (S k, j)); [split; cbn; lia|split; cbn in *; lia| | |apart; reflexivity];
          unfold adr2, pos; cbn [fst snd]; change (start nrec 0) with 0; lia. }
    intros [[c i] [d m]] ([H|H] & [P1 P2] & [Q1 Q2]); cbn [fst snd] in *; subst.
    - destruct d as [|l].
      + destruct (Nat.lt_trichotomy i m) as [L|[->|L]].
        * exists m. split; [lia|]. left. left. exists i. split; [lia|]. right. reflexivity.
        * exists m. split; [lia|]. left. right. reflexivity.
        * exists i. split; [lia|]. left. left. exists m. split; [lia|]. left. reflexivity.
      + exists i. split; [lia|]. right. exists l. split; [lia|]. exists m. split; [cbn; lia|]. left. reflexivity.
    - destruct c as [|l].
      + destruct (Nat.lt_trichotomy i m) as [L|[->|L]].
        * exists m. split; [lia|]. left. left. exists i. split; [lia|]. right. reflexivity.
        * exists m. split; [lia|]. left. right. reflexivity.
        * exists i. split; [lia|]. left. left. exists m. split; [lia|]. left. reflexivity.
      + exists m. split; [lia|]. right. exists l. split; [lia|]. exists i. split; [cbn; lia|]. right. reflexivity. }
  assert (W2 : wa (for_ 0 nl (fun j => B2 j (nrec 0 + psum (fun k => nrec (1 + k)) 0 (j - 0))))
     (fun k => fst (fst k) <> 0 /\ fst (snd k) <> 0 /\ valid nrec nl (fst k) /\ valid nrec nl (snd k))).
  { eapply writes_weak; [|apply wa_for1].
    2:{ intros k K. rewrite Nat.sub_0_r, <- rec_line. unfold B2. apply wa_for1. intros j J s. cbv zeta. rewrite for_pos_eq. cbn [snd]. revert s.
        apply (wa_seq1 (fun s => upd (for_ _ _ _ s) _ _)).
        - apply (wa_seq1 (fun s => for_ _ _ _ s) (fun s => upd s _ _)).
          + apply wa_for1. intros i I. apply (set2_writes1 (S k, j) (S k, i)); [split; cbn in *; lia|split; cbn in *; lia| | |];
            unfold adr2, pos; cbn [fst snd]; try lia.
            apart. unfold sym_value, CovProofs2.Trec, pos. cbn [fst snd]. rewrite Nat.ltb_irrefl. destruct (Nat.leb_spec i j); [reflexivity|lia].
          + apply (upd_writes nrec nrec nl V (S k, j) (S k, j)); [split; cbn in *; lia|split; cbn in *; lia| |].
            * unfold adr2, pos; cbn [fst snd]; lia.
            * rewrite self_eq. unfold CovProofs2.Trec, pos. cbn [fst snd]. reflexivity.
        - apply wa_for1. intros m Hm. apply wa_for1. intros i I.
          change (psum (fun m => nrec (1 + m))) with (psum (fun k => nrec (S k))). change (1 + k) with (S k). rewrite start_later by lia.
          apply (set2_writes1 (S k, j) (S m, i)); [split; cbn in *; lia|split; cbn in *; lia| | |];
          unfold adr2, pos; cbn [fst snd]; try lia.
          apart. unfold sym_value, CovProofs2.Trec, pos. cbn [fst snd]. destruct (Nat.ltb_spec k m); [reflexivity|lia]. }
    intros [[c i] [d m]] (H1 & H2 & [P1 P2] & [Q1 Q2]); cbn [fst snd] in *. destruct c as [|j], d as [|l]; try lia.
    destruct (Nat.lt_trichotomy j l) as [L|[->|L]].
    - exists j. split; [lia|]. exists i. split; [cbn; lia|]. right. exists l. split; [lia|]. exists m. split; [cbn; lia|]. left. reflexivity.
    - exists l. split; [lia|]. destruct (Nat.lt_trichotomy i m) as [M|[->|M]].
      + exists m. split; [cbn; lia|]. left. left. exists i. split; [lia|]. right. reflexivity.
      + exists m. split; [cbn; lia|]. left. right. reflexivity.
      + exists i. split; [cbn; lia|]. left. left. exists m. split; [lia|]. left. reflexivity.
    - exists l. split; [lia|]. exists m. split; [cbn; lia|]. right. exists j. split; [lia|]. exists i. split; [cbn; lia|]. right. reflexivity. }
  destruct (wa_seq1 _ _ _ _ W1 W2 A) as [F O]. split; [exact F|].
  intros p q P Q. refine (O (p, q) (or_introl _) P Q). cbn [fst snd]. destruct (Nat.eq_dec (fst p) 0); [left; auto|].
  destruct (Nat.eq_dec (fst q) 0); [left; auto|right; auto].
Qed.
End A.
End Rec.
End Assemble.
