(** Positive definite matrices, and what the loops and library calls of the
    partition routines do to the memory. *)
From Coq Require Import Reals List Arith Lia Lra Psatz Bool Classical.
From Verif Require Import SemisepModel SemisepProofs SemisepProofs2 MatBridge MatBridge2 SemisepProofs3 PartModel.
Import ListNotations.
Open Scope R_scope.

(** ** Positive definite *)
Definition quad (n : nat) (f : nat -> nat -> R) (x : nat -> R) : R := sumn n (fun i => sumn n (fun j => x i * f i j * x j)).
Definition spd (n : nat) (f : nat -> nat -> R) : Prop :=
  symm n f /\ forall x, (exists i, (i < n)%nat /\ x i <> 0) -> 0 < quad n f x.

Lemma quad_mul : forall n f x, quad n f x = sumn n (fun i => x i * sumn n (fun j => f i j * x j)).
Proof. intros. apply sumn_ext. intros. rewrite <- sumn_scal. apply sumn_ext. intros. ring. Qed.
Lemma sumn_add : forall n m f, sumn (n + m) f = sumn n f + sumn m (fun i => f (n + i)%nat).
Proof. intros. rewrite (sumn_split (n + m) n) by lia. replace (n + m - n)%nat with m by lia. reflexivity. Qed.

Lemma spd_lead : forall n m f, spd (n + m) f -> spd n f.
Proof.
  intros n m f [S P]. split.
  - intros i j I J. apply S; lia.
  - intros x (i & I & X).
    set (y := fun k => if Nat.ltb k n then x k else 0).
    assert (E : quad (n + m) f y = quad n f x).
    { unfold quad. rewrite sumn_add.
      rewrite (sumn_ext m _ (fun _ => 0)), sumn_zero.
      2: { intros k K. rewrite (sumn_ext (n + m) _ (fun _ => 0)); [apply sumn_zero|]. intros j J. unfold y.
           destruct (Nat.ltb_spec (n + k) n); [lia|]. ring. }
      rewrite Rplus_0_r. apply sumn_ext. intros a Ha. rewrite sumn_add.
      rewrite (sumn_ext m _ (fun _ => 0)), sumn_zero.
      2: { intros k K. unfold y at 2. destruct (Nat.ltb_spec (n + k) n); [lia|]. ring. }
      rewrite Rplus_0_r. apply sumn_ext. intros b Hb. unfold y.
      destruct (Nat.ltb_spec a n); [|lia]. destruct (Nat.ltb_spec b n); [|lia]. reflexivity. }
    rewrite <- E. apply P. exists i. split; [lia|]. unfold y. destruct (Nat.ltb_spec i n); [auto|lia].
Qed.

Lemma spd_schur : forall n1 n2 f Pi, spd (n1 + n2) f -> inv_of n1 f Pi -> spd n2 (Sch n1 f Pi).
Proof.
  intros n1 n2 f Pi [Sy P] HP. split; [exact (Sch_symm Sy HP)|].
  intros x (i & I & X).
  set (v := fun k => if Nat.ltb k n1 then - sumn n2 (fun l => PQ n1 f Pi k l * x l) else x (k - n1)%nat).
  assert (E : quad (n1 + n2) f v = quad n2 (Sch n1 f Pi) x).
  { rewrite !quad_mul, sumn_add.
    assert (V2 : forall k, v (n1 + k)%nat = x k).
    { intros k. unfold v. destruct (Nat.ltb_spec (n1 + k) n1); [lia|]. f_equal. lia. }
    assert (V1 : forall k, (k < n1)%nat -> v k = - sumn n2 (fun l => PQ n1 f Pi k l * x l)).
    { intros k K. unfold v. destruct (Nat.ltb_spec k n1); [reflexivity|lia]. }
    assert (LIN : forall a, (a < n1 + n2)%nat ->
      sumn (n1 + n2) (fun j => f a j * v j) =
      sumn n2 (fun l => (f a (n1 + l)%nat - sumn n1 (fun j => f a j * PQ n1 f Pi j l)) * x l)).
    { intros a Ha. rewrite sumn_add.
      rewrite (sumn_ext n1 _ (fun j => sumn n2 (fun l => - (f a j * PQ n1 f Pi j l) * x l))).
      2: { intros j J. rewrite V1 by auto. replace (f a j * - sumn n2 (fun l => PQ n1 f Pi j l * x l)) with (- f a j * sumn n2 (fun l => PQ n1 f Pi j l * x l)) by ring.
           rewrite <- sumn_scal. apply sumn_ext. intros; ring. }
      rewrite sumn_swap.
      rewrite (sumn_ext n2 (fun i0 => f a (n1 + i0)%nat * v (n1 + i0)%nat) (fun l => f a (n1 + l)%nat * x l)).
      2: { intros. rewrite V2. reflexivity. }
      rewrite Rplus_comm, <- sumn_plus. apply sumn_ext. intros l L.
      rewrite sumn_opp_ext.
      rewrite (sumn_ext n1 (fun i0 => - (f a i0 * PQ n1 f Pi i0 l)) (fun j => -1 * (f a j * PQ n1 f Pi j l))) by (intros; ring).
      rewrite sumn_scal. ring. }
    rewrite (sumn_ext n1 _ (fun _ => 0)), sumn_zero, Rplus_0_l.
    2: { intros a Ha. rewrite LIN by lia. rewrite (sumn_ext n2 _ (fun _ => 0)); [rewrite sumn_zero; ring|].
         intros l L.
         assert (Z : sumn n1 (fun j => f a j * PQ n1 f Pi j l) = f a (n1 + l)%nat).
         { unfold PQ. rewrite (sumn_ext n1 _ (fun j => sumn n1 (fun q => f a j * Pi j q * f q (n1 + l)%nat))).
           2: { intros j J. rewrite <- sumn_scal. apply sumn_ext. intros; ring. }
           rewrite sumn_swap. rewrite (sumn_ext n1 _ (fun q => delta a q * f q (n1 + l)%nat)).
           2: { intros q Q. rewrite sumn_opp_ext. rewrite (HP a q Ha Q). reflexivity. }
           rewrite (sumn_single n1 a); auto.
           - unfold delta. rewrite Nat.eqb_refl. ring.
           - intros q Q NE. unfold delta. destruct (Nat.eqb_spec a q); [congruence|]. ring. }
         rewrite Z. ring. }
    apply sumn_ext. intros a Ha. rewrite V2. f_equal. rewrite LIN by lia. apply sumn_ext. intros l L. f_equal.
    unfold Sch. f_equal. apply sumn_ext. intros j J. f_equal. apply Sy; lia. }
  rewrite <- E. apply P. exists (n1 + i)%nat. split; [lia|].
  unfold v. destruct (Nat.ltb_spec (n1 + i) n1); [lia|]. replace (n1 + i - n1)%nat with i by lia. exact X.
Qed.

Lemma spd_det : forall n f, spd n f -> 0 < detn n f.
Proof.
  induction n; intros f H.
  - rewrite detn0. lra.
  - assert (H1 : spd (n + 1) f) by (replace (n + 1)%nat with (S n) by lia; exact H).
    pose proof (IHn f (spd_lead n 1 f H1)) as D.
    assert (EX : exists h, inv_of n f h) by (apply det_inv; lra). destruct EX as [Pi HP].
    pose proof (schur_det (proj1 H1) HP) as SD.
    replace (n + 1)%nat with (S n) in SD by lia.
    change (ssrnat.addn n 1) with (n + 1)%nat in SD.
    replace (n + 1)%nat with (S n) in SD by lia. rewrite SD.
    destruct (spd_schur n 1 f Pi H1 HP) as [_ Q]. rewrite detn1.
    apply Rmult_lt_0_compat; [exact D|].
    specialize (Q (fun _ => 1)). unfold quad in Q. simpl in Q.
    assert (Q' : 0 < 0 + (0 + 1 * Sch n f Pi 0 0 * 1)) by (apply Q; exists 0%nat; split; [lia|lra]). lra.
Qed.

(** ** Addresses *)
Lemma flat_lt : forall n m i j, (i < n)%nat -> (j < m)%nat -> (i * m + j < n * m)%nat.
Proof. intros. nia. Qed.

Lemma store_in : forall mem p n m f i j, (i < n)%nat -> (j < m)%nat -> store mem p n m f (p + i * m + j)%nat = f i j.
Proof.
  intros mem p n m f i j I J. unfold store. pose proof (flat_lt n m i j I J).
  replace (Nat.leb p (p + i * m + j) && Nat.ltb (p + i * m + j) (p + n * m))%bool with true.
  - replace (p + i * m + j - p)%nat with (i * m + j)%nat by lia.
    rewrite Nat.div_add_l, Nat.div_small by lia. rewrite (Nat.add_comm (i * m)), Nat.mod_add, Nat.mod_small by lia.
    rewrite Nat.add_0_r. reflexivity.
  - symmetry. apply andb_true_intro. split; [apply Nat.leb_le|apply Nat.ltb_lt]; lia.
Qed.
Lemma store_out : forall mem p n m f x, (x < p \/ p + n * m <= x)%nat -> store mem p n m f x = mem x.
Proof.
  intros mem p n m f x H. unfold store. destruct (Nat.leb_spec p x), (Nat.ltb_spec x (p + n * m)); simpl; auto. lia.
Qed.
Lemma store_upper_in : forall mem p n f i j, (i <= j < n)%nat -> store_upper mem p n f (p + i * n + j)%nat = f i j.
Proof.
  intros mem p n f i j H. unfold store_upper. pose proof (flat_lt n n i j ltac:(lia) ltac:(lia)).
  replace (p + i * n + j - p)%nat with (i * n + j)%nat by lia.
  rewrite Nat.div_add_l, Nat.div_small by lia. rewrite (Nat.add_comm (i * n)), Nat.mod_add, Nat.mod_small by lia.
  rewrite Nat.add_0_r.
  destruct (Nat.leb_spec p (p + i * n + j)); [|lia]. destruct (Nat.ltb_spec (p + i * n + j) (p + n * n)); [|lia].
  destruct (Nat.leb_spec i j); [reflexivity|lia].
Qed.
Lemma store_upper_out : forall mem p n f x, (x < p \/ p + n * n <= x)%nat -> store_upper mem p n f x = mem x.
Proof.
  intros mem p n f x H. unfold store_upper. destruct (Nat.leb_spec p x), (Nat.ltb_spec x (p + n * n)); simpl; auto. lia.
Qed.

(** The n x m array at p with row length ld holds the values f. *)
Definition holds (mem : arr) (p ld n m : nat) (f : nat -> nat -> R) : Prop :=
  forall i j, (i < n)%nat -> (j < m)%nat -> mem (p + i * ld + j)%nat = f i j.
Definition outside (p len : nat) (x : nat) : Prop := (x < p \/ p + len <= x)%nat.
Definition disjoint (p len q len' : nat) : Prop := (p + len <= q \/ q + len' <= p)%nat.

(** ** Loops that write *)
Section Impl.
  Variables (Dall : nat -> Prop) (mem0 V : arr).
  Definition impl (D : nat -> Prop) (b : arr -> arr) : Prop :=
    forall mem, (forall x, ~ Dall x -> mem x = mem0 x) ->
      (forall x, D x -> b mem x = V x) /\ (forall x, ~ D x -> b mem x = mem x).
  Lemma impl_upd : forall d v, (forall mem, (forall x, ~ Dall x -> mem x = mem0 x) -> v mem = V d) ->
    impl (fun x => x = d) (fun mem => upd mem d (v mem)).
  Proof.
    intros d v H mem A. split.
    - intros x ->. rewrite upd_same. auto.
    - intros x N. apply upd_other. auto.
  Qed.
  Lemma impl_seq : forall (D1 D2 : nat -> Prop) (b1 b2 : arr -> arr), (forall x, D1 x -> Dall x) ->
    impl D1 b1 -> impl D2 b2 -> impl (fun x => D1 x \/ D2 x) (fun mem => b2 (b1 mem)).
  Proof.
    intros D1 D2 b1 b2 S1 H1 H2 mem A.
    destruct (H1 mem A) as [P1 P2].
    assert (A1 : forall x, ~ Dall x -> b1 mem x = mem0 x).
    { intros x N. rewrite P2; auto. }
    destruct (H2 (b1 mem) A1) as [Q1 Q2]. split.
    - intros x X. destruct (classic (D2 x)) as [Y|Y]; [auto|]. rewrite Q2 by auto. apply P1. tauto.
    - intros x X. rewrite Q2, P2 by tauto. reflexivity.
  Qed.
  Lemma impl_for : forall n lo (D : nat -> nat -> Prop) (body : nat -> arr -> arr),
    (forall i, (lo <= i < lo + n)%nat -> impl (D i) (body i)) ->
    (forall i x, (lo <= i < lo + n)%nat -> D i x -> Dall x) ->
    impl (fun x => exists i, (lo <= i < lo + n)%nat /\ D i x) (for_ lo n body).
  Proof.
    induction n; intros lo D body H HS mem A.
    - split; [intros x (i & I & _); lia|]. intros; reflexivity.
    - unfold for_. simpl. fold (for_ (S lo) n body (body lo mem)).
      pose proof (impl_seq (D lo) (fun x => exists i, (S lo <= i < S lo + n)%nat /\ D i x) (body lo) (for_ (S lo) n body)) as G.
      destruct (G) with (mem := mem) as [G1 G2].
      + intros x X. apply (HS lo x); [lia|auto].
      + apply H. lia.
      + apply IHn; [intros; apply H; lia|]. intros i x I. apply HS. lia.
      + exact A.
      + split.
        * intros x (i & I & X). apply G1. destruct (Nat.eq_dec i lo) as [->|NE]; [auto|]. right. exists i. split; [lia|auto].
        * intros x N. apply G2. intros [X|(i & I & X)]; apply N; [exists lo|exists i]; (split; [lia|auto]).
  Qed.
  Lemma impl_weak : forall (D D' : nat -> Prop) b, (forall x, D x <-> D' x) -> impl D b -> impl D' b.
  Proof. intros D D' b E H mem A. destruct (H mem A) as [P Q]. split; intros x X; [apply P|apply Q]; rewrite E; auto. Qed.
End Impl.

(** Value at an address of a row-major array. *)
Definition at_ (p ld : nat) (f : nat -> nat -> R) (x : nat) : R := f ((x - p) / ld)%nat ((x - p) mod ld).
Lemma at_val : forall p ld f i j, (j < ld)%nat -> at_ p ld f (p + i * ld + j)%nat = f i j.
Proof.
  intros. unfold at_. replace (p + i * ld + j - p)%nat with (i * ld + j)%nat by lia.
  rewrite Nat.div_add_l, Nat.div_small by lia. rewrite (Nat.add_comm (i * ld)), Nat.mod_add, Nat.mod_small by lia.
  rewrite Nat.add_0_r. reflexivity.
Qed.

(** Copying loop from src to a row-major n x m array at dst. *)
Lemma copy_loop : forall n m dst (src : nat -> nat -> nat) mem,
  (forall i j, (i < n)%nat -> (j < m)%nat -> outside dst (n * m) (src i j)) ->
  let mem' := for_ 0 n (fun i mem => for_ 0 m (fun j mem => upd mem (dst + i * m + j) (mem (src i j))) mem) mem in
  (forall i j, (i < n)%nat -> (j < m)%nat -> mem' (dst + i * m + j)%nat = mem (src i j)) /\
  (forall x, outside dst (n * m) x -> mem' x = mem x).
Proof.
  intros n m dst src mem H mem'.
  set (Dall := fun x => ~ outside dst (n * m) x).
  assert (I : impl Dall mem (at_ dst m (fun i j => mem (src i j)))
    (fun x => exists i, (0 <= i < 0 + n)%nat /\ exists j, (0 <= j < 0 + m)%nat /\ x = (dst + i * m + j)%nat)
    (fun mem => for_ 0 n (fun i mem => for_ 0 m (fun j mem => upd mem (dst + i * m + j) (mem (src i j))) mem) mem)).
  { apply impl_for.
    - intros i I. apply impl_for.
      + intros j J. apply (impl_upd Dall mem _ _ (fun mem => mem (src i j))). intros m1 A. rewrite at_val by lia. apply A.
        unfold Dall. intros N. apply N. apply H; lia.
      + intros j x J -> . unfold Dall, outside. pose proof (flat_lt n m i j ltac:(lia) ltac:(lia)). lia.
    - intros i x I (j & J & ->). unfold Dall, outside. pose proof (flat_lt n m i j ltac:(lia) ltac:(lia)). lia. }
  destruct (I mem ltac:(auto)) as [I1 I2]. split.
  - intros i j Hi Hj. unfold mem'. rewrite I1; [apply at_val; auto|]. exists i. split; [lia|]. exists j. split; [lia|reflexivity].
  - intros x X. unfold mem'. apply I2. intros (i & Hi & j & Hj & ->). unfold outside in X.
    pose proof (flat_lt n m i j ltac:(lia) ltac:(lia)). lia.
Qed.

Lemma get_Q_ok : forall mem A nt ni nq QNi,
  (forall i j, (i < ni)%nat -> (j < nq)%nat -> outside QNi (ni * nq) (A + i * nt + (ni + j))%nat) ->
  holds (get_Q mem A nt ni nq QNi) QNi nq ni nq (fun i j => mem (A + i * nt + (ni + j))%nat) /\
  (forall x, outside QNi (ni * nq) x -> get_Q mem A nt ni nq QNi x = mem x).
Proof. intros. exact (copy_loop ni nq QNi (fun i j => A + i * nt + (ni + j))%nat mem H). Qed.
Lemma get_S_ok : forall mem A nt ni nq SNi,
  (forall i j, (i < nq)%nat -> (j < nq)%nat -> outside SNi (nq * nq) (A + (ni + i) * nt + (ni + j))%nat) ->
  holds (get_S mem A nt ni nq SNi) SNi nq nq nq (fun i j => mem (A + (ni + i) * nt + (ni + j))%nat) /\
  (forall x, outside SNi (nq * nq) x -> get_S mem A nt ni nq SNi x = mem x).
Proof. intros. exact (copy_loop nq nq SNi (fun i j => A + (ni + i) * nt + (ni + j))%nat mem H). Qed.

Lemma fill_lower_ok : forall mem p n,
  let mem' := fill_lower mem p n in
  (forall i j, (i <= j < n)%nat -> mem' (p + i * n + j)%nat = mem (p + i * n + j)%nat /\ mem' (p + j * n + i)%nat = mem (p + i * n + j)%nat) /\
  (forall x, outside p (n * n) x -> mem' x = mem x).
Proof.
  intros mem p n mem'.
  set (Dall := fun x => exists i, (0 <= i < 0 + n)%nat /\ exists j, (0 <= j < 0 + i)%nat /\ x = (p + i * n + j)%nat).
  assert (I : impl Dall mem (at_ p n (fun i j => mem (p + j * n + i)%nat)) Dall (fun mem => fill_lower mem p n)).
  { apply impl_for.
    - intros i I. apply impl_for.
      + intros j J. apply (impl_upd Dall mem _ _ (fun mem => mem (p + j * n + i)%nat)). intros m1 A. rewrite at_val by lia. apply A.
        intros (i' & I' & j' & J' & E). assert (E2 : (j * n + i = i' * n + j')%nat) by lia. apply flat_inj in E2; lia.
      + intros j x J ->. exists i. split; [lia|]. exists j. auto.
    - intros i x I X. exists i. auto. }
  destruct (I mem ltac:(auto)) as [I1 I2]. split.
  - intros i j H. split.
    + unfold mem'. apply I2. intros (i' & I' & j' & J' & E). assert (E2 : (i * n + j = i' * n + j')%nat) by lia. apply flat_inj in E2; lia.
    + destruct (Nat.eq_dec i j) as [->|NE].
      * unfold mem'. apply I2. intros (i' & I' & j' & J' & E). assert (E2 : (j * n + j = i' * n + j')%nat) by lia. apply flat_inj in E2; lia.
      * unfold mem'. rewrite I1; [apply at_val; lia|]. exists j. split; [lia|]. exists i. split; [lia|reflexivity].
  - intros x X. unfold mem'. apply I2. intros (i & Hi & j & Hj & ->). unfold outside in X.
    pose proof (flat_lt n n i j ltac:(lia) ltac:(lia)). lia.
Qed.

Lemma copy_upper_ok : forall mem A nt n dst,
  (forall i j, (i <= j < n)%nat -> outside dst (n * n) (A + i * nt + j)%nat) ->
  let mem' := for_ 0 n (fun i mem => for_ i (n - i) (fun j mem => upd mem (dst + i * n + j) (mem (A + i * nt + j)%nat)) mem) mem in
  (forall i j, (i <= j < n)%nat -> mem' (dst + i * n + j)%nat = mem (A + i * nt + j)%nat) /\
  (forall x, outside dst (n * n) x -> mem' x = mem x).
Proof.
  intros mem A nt n dst H mem'.
  set (Dall := fun x => ~ outside dst (n * n) x).
  assert (I : impl Dall mem (at_ dst n (fun i j => mem (A + i * nt + j)%nat))
    (fun x => exists i, (0 <= i < 0 + n)%nat /\ exists j, (i <= j < i + (n - i))%nat /\ x = (dst + i * n + j)%nat)
    (fun mem => for_ 0 n (fun i mem => for_ i (n - i) (fun j mem => upd mem (dst + i * n + j) (mem (A + i * nt + j)%nat)) mem) mem)).
  { apply impl_for.
    - intros i I. apply impl_for.
      + intros j J. apply (impl_upd Dall mem _ _ (fun mem => mem (A + i * nt + j)%nat)). intros m1 AG. rewrite at_val by lia. apply AG.
        unfold Dall. intros N. apply N. apply H; lia.
      + intros j x J -> . unfold Dall, outside. pose proof (flat_lt n n i j ltac:(lia) ltac:(lia)). lia.
    - intros i x I (j & J & ->). unfold Dall, outside. pose proof (flat_lt n n i j ltac:(lia) ltac:(lia)). lia. }
  destruct (I mem ltac:(auto)) as [I1 I2]. split.
  - intros i j Hi. unfold mem'. rewrite I1; [apply at_val; lia|]. exists i. split; [lia|]. exists j. split; [lia|reflexivity].
  - intros x X. unfold mem'. apply I2. intros (i & Hi & j & Hj & ->). unfold outside in X.
    pose proof (flat_lt n n i j ltac:(lia) ltac:(lia)). lia.
Qed.

Lemma new_A_ok : forall mem Ai ANi QNi SNi ni nq,
  let N := (ni + nq)%nat in
  disjoint Ai (N * N) ANi (ni * ni) -> disjoint Ai (N * N) QNi (ni * nq) -> disjoint Ai (N * N) SNi (nq * nq) ->
  let mem' := new_A mem Ai ANi QNi SNi ni nq in
  holds mem' Ai N N N (blockf ni (fun i j => mem (ANi + i * ni + j)%nat) (fun i j => mem (QNi + i * nq + j)%nat)
     (fun i j => mem (QNi + j * nq + i)%nat) (fun i j => mem (SNi + i * nq + j)%nat)) /\
  (forall x, outside Ai (N * N) x -> mem' x = mem x).
Proof.
  intros mem Ai ANi QNi SNi ni nq N D1 D2 D3 mem'.
  set (g := blockf ni (fun i j => mem (ANi + i * ni + j)%nat) (fun i j => mem (QNi + i * nq + j)%nat)
     (fun i j => mem (QNi + j * nq + i)%nat) (fun i j => mem (SNi + i * nq + j)%nat)).
  set (Dall := fun x => ~ outside Ai (N * N) x).
  assert (IN : forall i j, (i < N)%nat -> (j < N)%nat -> Dall (Ai + i * N + j)%nat).
  { intros i j I J. unfold Dall, outside. pose proof (flat_lt N N i j I J). lia. }
  assert (SRC : forall q len x, disjoint Ai (N * N) q len -> (q <= x < q + len)%nat -> ~ Dall x).
  { intros q len x D X Y. apply Y. unfold outside, disjoint in *. lia. }
  set (DA := fun i x => exists j, (0 <= j < 0 + ni)%nat /\ x = (Ai + i * N + j)%nat).
  set (DB := fun i x => exists j, (0 <= j < 0 + nq)%nat /\ (x = (Ai + (ni + j) * N + i)%nat \/ x = (Ai + i * N + (ni + j))%nat)).
  set (DS := fun x => exists i, (0 <= i < 0 + nq)%nat /\ exists j, (0 <= j < 0 + nq)%nat /\ x = (Ai + (ni + i) * N + (ni + j))%nat).
  assert (I : impl Dall mem (at_ Ai N g)
    (fun x => (exists i, (0 <= i < 0 + ni)%nat /\ (DA i x \/ DB i x)) \/ DS x)
    (fun mem => new_A mem Ai ANi QNi SNi ni nq)).
  { unfold new_A. fold N.
    apply (impl_seq Dall mem _ (fun x => exists i, (0 <= i < 0 + ni)%nat /\ (DA i x \/ DB i x)) DS
      (fun mem => for_ 0 ni (fun i mem => for_ 0 nq (fun j mem => upd (upd mem (Ai + (ni + j) * N + i) (mem (QNi + i * nq + j)%nat)) (Ai + i * N + (ni + j)) (mem (QNi + i * nq + j)%nat))
         (for_ 0 ni (fun j mem => upd mem (Ai + i * N + j) (mem (ANi + i * ni + j)%nat)) mem)) mem)
      (fun mem => for_ 0 nq (fun i mem => for_ 0 nq (fun j mem => upd mem (Ai + (ni + i) * N + (ni + j)) (mem (SNi + i * nq + j)%nat)) mem) mem)).
    - intros x (i & I & [(j & J & ->)|(j & J & [->| ->])]); apply IN; unfold N; lia.
    - apply impl_for.
      + intros i I.
        apply (impl_seq Dall mem _ (DA i) (DB i) (fun mem => for_ 0 ni (fun j mem => upd mem (Ai + i * N + j) (mem (ANi + i * ni + j)%nat)) mem)
           (fun mem => for_ 0 nq (fun j mem => upd (upd mem (Ai + (ni + j) * N + i) (mem (QNi + i * nq + j)%nat)) (Ai + i * N + (ni + j)) (mem (QNi + i * nq + j)%nat)) mem)).
        * intros x (j & J & ->). apply IN; unfold N; lia.
        * apply impl_for.
          -- intros j J. apply (impl_upd Dall mem _ _ (fun mem => mem (ANi + i * ni + j)%nat)). intros m1 A.
             rewrite at_val by (unfold N; lia). rewrite A.
             2: { apply (SRC ANi (ni * ni)%nat); [auto|]. pose proof (flat_lt ni ni i j ltac:(lia) ltac:(lia)). lia. }
             unfold g, blockf. destruct (Nat.ltb_spec i ni); [|lia]. destruct (Nat.ltb_spec j ni); [reflexivity|lia].
          -- intros j x J ->. apply IN; unfold N; lia.
        * apply impl_for.
          -- intros j J m1 A.
             assert (Q : m1 (QNi + i * nq + j)%nat = mem (QNi + i * nq + j)%nat).
             { apply A. apply (SRC QNi (ni * nq)%nat); [auto|]. pose proof (flat_lt ni nq i j ltac:(lia) ltac:(lia)). lia. }
             assert (NE : (Ai + (ni + j) * N + i <> Ai + i * N + (ni + j))%nat).
             { intros E. assert (E2 : ((ni + j) * N + i = i * N + (ni + j))%nat) by lia. apply flat_inj in E2; unfold N in *; lia. }
             split.
             ++ intros x [->| ->].
                ** rewrite upd_other by exact NE. rewrite upd_same, Q, at_val by (unfold N; lia).
                   unfold g, blockf. destruct (Nat.ltb_spec (ni + j) ni); [lia|]. destruct (Nat.ltb_spec i ni); [|lia].
                   replace (ni + j - ni)%nat with j by lia. reflexivity.
                ** rewrite upd_same, Q, at_val by (unfold N; lia).
                   unfold g, blockf. destruct (Nat.ltb_spec i ni); [|lia]. destruct (Nat.ltb_spec (ni + j) ni); [lia|].
                   replace (ni + j - ni)%nat with j by lia. reflexivity.
             ++ intros x X. rewrite !upd_other; auto.
          -- intros j x J [->| ->]; apply IN; unfold N; lia.
      + intros i x I [(j & J & ->)|(j & J & [->| ->])]; apply IN; unfold N; lia.
    - apply impl_for.
      + intros i I. apply impl_for.
        * intros j J. apply (impl_upd Dall mem _ _ (fun mem => mem (SNi + i * nq + j)%nat)). intros m1 A.
          rewrite at_val by (unfold N; lia). rewrite A.
          2: { apply (SRC SNi (nq * nq)%nat); [auto|]. pose proof (flat_lt nq nq i j ltac:(lia) ltac:(lia)). lia. }
          unfold g, blockf. destruct (Nat.ltb_spec (ni + i) ni); [lia|]. destruct (Nat.ltb_spec (ni + j) ni); [lia|].
          replace (ni + i - ni)%nat with i by lia. replace (ni + j - ni)%nat with j by lia. reflexivity.
        * intros j x J ->. apply IN; unfold N; lia.
      + intros i x I (j & J & ->). apply IN; unfold N; lia. }
  destruct (I mem ltac:(auto)) as [I1 I2]. split.
  - intros i j Hi Hj. unfold mem'. rewrite I1; [apply at_val; auto|].
    destruct (le_lt_dec ni i) as [Li|Li], (le_lt_dec ni j) as [Lj|Lj].
    + right. exists (i - ni)%nat. split; [unfold N in *; lia|]. exists (j - ni)%nat. split; [unfold N in *; lia|]. f_equal; [f_equal; f_equal; lia|lia].
    + left. exists j. split; [lia|]. right. exists (i - ni)%nat. split; [unfold N in *; lia|]. left. f_equal. f_equal. f_equal. lia.
    + left. exists i. split; [lia|]. right. exists (j - ni)%nat. split; [unfold N in *; lia|]. right. f_equal. lia.
    + left. exists i. split; [lia|]. left. exists j. split; [lia|]. reflexivity.
  - intros x X. unfold mem'. apply I2. intros Y.
    assert (Dall x). { destruct Y as [(i & Hi & [(j & J & ->)|(j & J & [->| ->])])|(i & Hi & j & J & ->)]; apply IN; unfold N; lia. }
    apply H. exact X.
Qed.
