(** dgetrf: the determinant from its factors, and that factors exist. *)
From Coq Require Import Reals List Arith Lia Lra Classical.
From Verif Require Import SemisepModel SemisepProofs MatBridge MatBridge2 GlsAlgebra LikeProofs LuSpec LuDet.
Open Scope R_scope.

(** ** Determinant *)
Definition swap_sign (n : nat) (ip : nat -> nat) : R := prodn n (fun i => flip i (ip i - 1)).
Lemma flip_sq i p : flip i p * flip i p = 1.
Proof. unfold flip. destruct (Nat.eqb i p); ring. Qed.
Lemma prodn_ext n f g : (forall i, (i < n)%nat -> f i = g i) -> prodn n f = prodn n g.
Proof. induction n as [|n IH]; intros H; [reflexivity|]. cbn [prodn]. rewrite IH, H by auto. reflexivity. Qed.
Lemma det_exchanged n k ip A : (k <= n)%nat -> (forall i, (i < k)%nat -> (i + 1 <= ip i <= n)%nat) ->
  detn n (exchanged k ip A) = swap_sign k ip * detn n A.
Proof.
  unfold swap_sign. induction k as [|k IH]; intros K H; cbn [exchanged prodn]; [ring|].
  specialize (H k ltac:(lia)) as HK. rewrite det_swap by lia. rewrite IH by (auto; lia). ring.
Qed.
Lemma lower_det n f : detn n (lower_factor n f) = 1.
Proof.
  rewrite det_low.
  - transitivity (prodn n (fun _ => 1)); [apply prodn_ext|].
    + intros i _. unfold lower_factor. rewrite Nat.ltb_irrefl, Nat.eqb_refl. reflexivity.
    + induction n as [|n IH]; cbn [prodn]; [reflexivity|]. rewrite IH. ring.
  - intros i j IJ _. unfold lower_factor. destruct (Nat.ltb_spec j i); [lia|]. destruct (Nat.eqb_spec j i); [lia|reflexivity].
Qed.
Lemma upper_det n f : detn n (upper_factor n f) = prodn n (fun i => f (i * n + i)%nat).
Proof.
  rewrite det_upper.
  - apply prodn_ext. intros i _. unfold upper_factor. rewrite Nat.leb_refl. reflexivity.
  - intros i j JI _. unfold upper_factor. destruct (Nat.leb_spec i j); [lia|reflexivity].
Qed.
Lemma sign_sq n ip : swap_sign n ip * swap_sign n ip = 1.
Proof.
  unfold swap_sign. induction n as [|n IH]; cbn [prodn]; [ring|].
  replace (prodn n (fun i => flip i (ip i - 1)) * flip n (ip n - 1) * (prodn n (fun i => flip i (ip i - 1)) * flip n (ip n - 1)))
    with (prodn n (fun i => flip i (ip i - 1)) * prodn n (fun i => flip i (ip i - 1)) * (flip n (ip n - 1) * flip n (ip n - 1))) by ring.
  rewrite IH, flip_sq. ring.
Qed.
Lemma lu_det n A f ip : lu_factors n A f ip -> detn n A = swap_sign n ip * prodn n (fun i => f (i * n + i)%nat).
Proof.
  intros (H1 & H2 & _).
  assert (E : detn n (exchanged n ip A) = prodn n (fun i => f (i * n + i)%nat)).
  { rewrite (detn_ext (g := fun i j => sumn n (fun k => lower_factor n f i k * upper_factor n f k j)) H2), det_prod, lower_det, upper_det. ring. }
  rewrite det_exchanged in E by (auto; lia). rewrite <- E. rewrite <- Rmult_assoc, sign_sq. ring.
Qed.

(** ** Existence *)
Definition nonsingular (n : nat) (A : nat -> nat -> R) : Prop := forall v, (forall i, (i < n)%nat -> mv n A v i = 0) -> forall j, (j < n)%nat -> v j = 0.
Lemma inv_nonsingular n A B : inv_of n A B -> nonsingular n A.
Proof.
  intros H v V j J. rewrite <- (mv_id n B A v j (inv_swap _ _ _ H) J).
  transitivity (mv n B (fun _ => 0) j); [apply mv_ext; auto|]. unfold mv. rewrite (sumn_ext n _ (fun _ => 0 * 0)) by (intros; ring).
  rewrite sumn_scal. ring.
Qed.
(** exchanged rows are rows *)
Fixpoint place (n : nat) (ip : nat -> nat) (r : nat) : nat :=
  match n with
  | O => r
  | S k => place k ip (if Nat.eqb r k then ip k - 1 else if Nat.eqb r (ip k - 1) then k else r)%nat
  end.
Lemma exchanged_place n ip A r c : exchanged n ip A r c = A (place n ip r) c.
Proof. revert r. induction n as [|n IH]; intros r; cbn [exchanged place]; [reflexivity|]. unfold swap_rows. apply IH. Qed.
Lemma place_lt N n ip r : (n <= N)%nat -> (forall i, (i < n)%nat -> (i + 1 <= ip i <= N)%nat) -> (r < N)%nat -> (place n ip r < N)%nat.
Proof.
  revert r. induction n as [|n IH]; intros r L H R0; cbn [place]; [exact R0|]. specialize (H n ltac:(lia)) as Hn.
  apply IH; [lia| |]. { intros i I. apply H. lia. }
  destruct (Nat.eqb_spec r n); [lia|]. destruct (Nat.eqb_spec r (ip n - 1)); lia.
Qed.
(** with the first exchange done, the others work on rows 1, 2, ... *)
Definition later (p : nat) (ip : nat -> nat) (i : nat) : nat := match i with O => p | S k => S (ip k) end.
Lemma place_later n p ip r : (1 <= p)%nat -> (forall i, (i < n)%nat -> (1 <= ip i)%nat) ->
  place (S n) (later p ip) r = (if Nat.eqb r 0 then p - 1 else let q := S (place n ip (r - 1)) in if Nat.eqb q (p - 1) then 0 else q)%nat.
Proof.
  intros P H. revert r. induction n as [|n IH]; intros r.
  - cbn [place later]. destruct (Nat.eqb_spec r 0); [reflexivity|]. cbv zeta. replace (S (r - 1)) with r by lia. reflexivity.
  - assert (Hn := H n ltac:(lia)). change (place (S (S n)) (later p ip) r) with
      (place (S n) (later p ip) (if Nat.eqb r (S n) then later p ip (S n) - 1 else if Nat.eqb r (later p ip (S n) - 1) then S n else r)%nat).
    rewrite IH by (intros; apply H; lia). cbn [later place]. replace (S (ip n) - 1)%nat with (ip n) by lia.
    destruct (Nat.eqb_spec r 0) as [->|NZ].
    + destruct (Nat.eqb_spec 0 (S n)); [lia|]. destruct (Nat.eqb_spec 0 (ip n)); [lia|]. reflexivity.
    + destruct (Nat.eqb_spec r (S n)) as [->|].
      * destruct (Nat.eqb_spec (ip n) 0); [lia|]. replace (S n - 1)%nat with n by lia. rewrite Nat.eqb_refl. reflexivity.
      * destruct (Nat.eqb_spec (r - 1) n); [lia|]. destruct (Nat.eqb_spec r (ip n)) as [->|].
        -- rewrite Nat.eqb_refl. destruct (Nat.eqb_spec (S n) 0); [lia|]. replace (S n - 1)%nat with n by lia. reflexivity.
        -- destruct (Nat.eqb_spec r 0); [lia|]. destruct (Nat.eqb_spec (r - 1) (ip n - 1)); [lia|]. reflexivity.
Qed.
Lemma largest_row (g : nat -> R) n : exists p, (p <= n)%nat /\ forall i, (i <= n)%nat -> Rabs (g i) <= Rabs (g p).
Proof.
  induction n as [|n (p & P & H)].
  - exists 0%nat. split; [lia|]. intros i I. replace i with 0%nat by lia. lra.
  - destruct (Rle_dec (Rabs (g (S n))) (Rabs (g p))) as [L|L].
    + exists p. split; [lia|]. intros i I. destruct (Nat.eq_dec i (S n)) as [->|]; [exact L|apply H; lia].
    + exists (S n). split; [lia|]. intros i I. destruct (Nat.eq_dec i (S n)) as [->|]; [lra|]. specialize (H i ltac:(lia)). lra.
Qed.
Lemma sumn_first n f : sumn (S n) f = f 0%nat + sumn n (fun i => f (S i)).
Proof. induction n as [|n IH]; [cbn; ring|]. change (sumn (S (S n)) f) with (sumn (S n) f + f (S n)). rewrite IH. cbn [sumn]. ring. Qed.
Lemma row_col n i j : (j < n)%nat -> ((i * n + j) / n = i /\ (i * n + j) mod n = j)%nat.
Proof. intros J. split; [rewrite Nat.div_add_l by lia; rewrite Nat.div_small by lia; lia|]. rewrite Nat.add_comm, Nat.mod_add by lia. apply Nat.mod_small, J. Qed.

Theorem lu_exists : forall n A, nonsingular n A -> exists f ip, lu_factors n A f ip.
Proof.
  induction n as [|n IH]; intros A NS.
  { exists (fun _ => 0), (fun _ => 0%nat). repeat split; intros; lia. }
  destruct (largest_row (fun i => A i 0%nat) n) as (p & P & LP). cbv beta in LP.
  assert (PZ : A p 0%nat <> 0).
  { intros Z. assert (C : forall i, (i <= n)%nat -> A i 0%nat = 0).
    { intros i I. specialize (LP i I). rewrite Z, Rabs_R0 in LP. pose proof (Rabs_pos (A i 0%nat)). destruct (Req_dec (A i 0%nat) 0); [auto|].
      pose proof (Rabs_pos_lt _ H0). lra. }
    assert (1 = 0); [|lra]. apply (NS (fun j => if Nat.eqb j 0 then 1 else 0)) with (j := 0%nat); [|lia].
    intros i I. unfold mv. rewrite sumn_first. cbn [Nat.eqb]. rewrite C by lia.
    rewrite (sumn_ext n _ (fun _ => 0 * 0)) by (intros; ring). rewrite sumn_scal. ring. }
  set (B := swap_rows A 0 p).
  assert (B00 : B 0%nat 0%nat = A p 0%nat) by reflexivity.
  assert (BR : forall r c, B r c = A (if Nat.eqb r 0 then p else if Nat.eqb r p then 0%nat else r) c) by reflexivity.
  set (b := B 0%nat 0%nat) in *.
  assert (BZ : b <> 0) by (rewrite B00; exact PZ).
  assert (BM : forall i, (i <= n)%nat -> Rabs (B i 0%nat) <= Rabs b).
  { intros i I. rewrite BR, B00. apply LP. destruct (Nat.eqb i 0); [lia|]. destruct (Nat.eqb i p); lia. }
  set (M := fun i j => B (S i) (S j) - B (S i) 0%nat * B 0%nat (S j) / b).
  assert (NB : nonsingular (S n) B).
  { intros v V. apply NS. intros i I.
    set (r := if Nat.eqb i 0 then p else if Nat.eqb i p then 0%nat else i).
    assert (RB : forall c, B r c = A i c).
    { intros c. rewrite BR. f_equal. unfold r. destruct (Nat.eqb_spec i 0) as [->|].
      - destruct (Nat.eqb_spec p 0); [congruence|]. rewrite Nat.eqb_refl. reflexivity.
      - destruct (Nat.eqb_spec i p) as [->|]; [reflexivity|]. destruct (Nat.eqb_spec i 0); [congruence|]. destruct (Nat.eqb_spec i p); congruence. }
    rewrite <- (V r). { unfold mv. apply sumn_ext. intros k K. rewrite RB. reflexivity. }
    unfold r. destruct (Nat.eqb i 0); [lia|]. destruct (Nat.eqb i p); lia. }
  assert (NM : nonsingular n M).
  { intros w W j J. set (w0 := - sumn n (fun k => B 0%nat (S k) * w k) / b).
    apply (NB (fun j => match j with O => w0 | S k => w k end)) with (j := S j); [|lia]. intros i I. unfold mv. rewrite sumn_first. cbv beta iota. destruct i as [|i].
    - fold b. unfold w0. field. exact BZ.
    - specialize (W i ltac:(lia)). unfold mv, M in W.
      rewrite (sumn_ext n _ (fun k => B (S i) (S k) * w k + - (B (S i) 0%nat / b) * (B 0%nat (S k) * w k))) in W by (intros; field; exact BZ).
      rewrite sumn_plus, sumn_scal in W. unfold w0. etransitivity; [|exact W]. field. exact BZ. }
  destruct (IH M NM) as (f & ip & HI & HF & HP).
  set (m := fun i => B (S (place n ip i)) 0%nat / b).
  set (g := fun i j => match i, j with O, _ => B 0%nat j | S i, O => m i | S i, S j => f (i * n + j)%nat end).
  exists (fun x => g (x / S n) (x mod S n))%nat, (later (S p) ip).
  assert (G : forall i j, (j < S n)%nat -> g ((i * S n + j) / S n)%nat ((i * S n + j) mod S n)%nat = g i j).
  { intros i j J. destruct (row_col (S n) i j J) as [-> ->]. reflexivity. }
  assert (HI1 : forall i, (i < n)%nat -> (1 <= ip i)%nat) by (intros i I; specialize (HI i I); lia).
  assert (PL : forall i, (i < n)%nat -> (place n ip i < n)%nat) by (intros; apply place_lt; auto).
  split; [|split].
  - intros [|i] I; cbn [later]; [lia|]. specialize (HI i ltac:(lia)). lia.
  - intros i j I J. rewrite exchanged_place, place_later by (auto; lia). replace (S p - 1)%nat with p by lia.
    assert (EB : A (if Nat.eqb i 0 then p else let q := S (place n ip (i - 1)) in if Nat.eqb q p then 0%nat else q) j =
      B (match i with O => 0 | S k => S (place n ip k) end)%nat j).
    { rewrite BR. destruct i as [|i]; [reflexivity|]. cbn [Nat.eqb]. replace (S i - 1)%nat with i by lia. reflexivity. }
    rewrite EB. clear EB. rewrite sumn_first.
    unfold lower_factor at 1, upper_factor at 1. rewrite (G i 0%nat), (G 0%nat j) by lia. cbn [Nat.leb].
    destruct i as [|i].
    + cbn [Nat.ltb Nat.leb Nat.eqb]. rewrite (sumn_ext n _ (fun _ => 0 * 0)).
      * rewrite sumn_scal. cbn [g]. ring.
      * intros k K. unfold lower_factor. cbn [Nat.ltb Nat.leb Nat.eqb]. ring.
    + cbn [Nat.ltb Nat.leb]. cbn [g].
      assert (EI : (i < n)%nat) by lia.
      assert (T : forall k, (k < n)%nat -> lower_factor (S n) (fun x => g (x / S n)%nat (x mod S n)%nat) (S i) (S k) = lower_factor n f i k).
      { intros k K. unfold lower_factor. rewrite G by lia. cbn [g]. change (S k <? S i)%nat with (k <? i)%nat. reflexivity. }
      destruct j as [|j].
      * rewrite (sumn_ext n _ (fun _ => 0 * 0)).
        -- rewrite sumn_scal. unfold m. fold b. field. exact BZ.
        -- intros k K. unfold upper_factor. cbn [Nat.leb]. ring.
      * rewrite (sumn_ext n _ (fun k => lower_factor n f i k * upper_factor n f k j)).
        -- rewrite <- HF by lia. rewrite exchanged_place. unfold M, m. field. exact BZ.
        -- intros k K. rewrite T by auto. unfold upper_factor. rewrite G by lia. cbn [g]. reflexivity.
  - intros i j IJ. rewrite G by lia. destruct i as [|i]; [lia|]. cbn [g]. destruct j as [|j]; [|apply HP; lia].
    unfold m. specialize (BM (S (place n ip i)) ltac:(specialize (PL i ltac:(lia)); lia)).
    unfold Rdiv. rewrite Rabs_mult, Rabs_Rinv by exact BZ. pose proof (Rabs_pos_lt b BZ).
    apply Rmult_le_reg_r with (Rabs b); [auto|]. rewrite Rmult_assoc, Rinv_l by lra. lra.
Qed.
