(** Proof tools for HeapModel.v: a checker that follows one name through a program, and its
    soundness for every pointer of that name. *)
From Coq Require Import Ascii String List Bool Arith Lia FinFun.
From Verif Require Import CPrelude GetoptModel DampModel HeapModel.
Import ListNotations.
Open Scope nat_scope.
Open Scope list_scope.

Definition ceqb (a b : count) : bool :=
  match a, b with
  | One, One | Nine, Nine | Eleven, Eleven | Sets, Sets | Lines, Lines | Params, Params | Levels, Levels | Samples, Samples => true
  | _, _ => false
  end.
Lemma ceqb_eq : forall a b, ceqb a b = true -> a = b.
Proof. destruct a, b; cbn; congruence. Qed.
Definition oeqb (a b : option count) : bool :=
  match a, b with None, None => true | Some a, Some b => ceqb a b | _, _ => false end.
Lemma oeqb_eq : forall a b, oeqb a b = true -> a = b.
Proof. destruct a, b; cbn; intros; try congruence. f_equal; now apply ceqb_eq. Qed.

Fixpoint occ (x : string) (l : list string) : nat :=
  match l with [] => 0 | y :: l => (if String.eqb x y then 1 else 0) + occ x l end.

Definition chk1 (x : string) (a : option count) (s : stmt) : option (option count) :=
  match s with (k, c, xs) =>
    match occ x xs with
    | 0 => Some a
    | 1 => match k, a with
           | Malloc, None => Some (Some c)
           | Free, Some d => if ceqb c d then Some None else None
           | Use, Some d => if ceqb c d then Some a else None
           | _, _ => None
           end
    | _ => None
    end
  end.
Definition fixed (a : option count) : bool :=
  match a with Some Params | Some Levels | Some Samples => false | _ => true end.
Fixpoint chk (x : string) (a : option count) (p : prog) : option (option count) :=
  match p with
  | Skip => Some a
  | Do s => chk1 x a s
  | Seq p q => match chk x a p with Some a => chk x a q | None => None end
  | Pick _ p q => match chk x a p, chk x a q with Some b, Some c => if oeqb b c then Some b else None | _, _ => None end
  | Loop _ p => match chk x a p with Some b => if oeqb a b then Some a else None | None => None end
  | Each _ p => if fixed a then match chk x a p with Some b => if oeqb a b then Some a else None | None => None end else None
  end.
Fixpoint names (p : prog) : list string :=
  match p with
  | Skip => [] | Do (_, _, xs) => xs | Seq p q | Pick _ p q => names p ++ names q | Loop _ p | Each _ p => names p
  end.

(** what happens to one pointer *)
Definition ptr_eqb (p q : ptr) : bool :=
  if list_eq_dec Nat.eq_dec (snd p) (snd q) then String.eqb (fst p) (fst q) else false.
Definition kinds (p : ptr) (l : list op) : list kind := map fst (filter (fun o => ptr_eqb p (snd o)) l).
Lemma kinds_app : forall p a b, kinds p (a ++ b) = kinds p a ++ kinds p b.
Proof. intros. unfold kinds. now rewrite filter_app, map_app. Qed.

Fixpoint go (b : bool) (l : list kind) : option bool :=
  match l with
  | [] => Some b
  | Malloc :: l => if b then None else go true l
  | Free :: l => if b then go false l else None
  | Use :: l => if b then go true l else None
  end.
Lemma go_app : forall a l b c, go b a = Some c -> go b (a ++ l) = go c l.
Proof.
  induction a as [|[] a IH]; intros l b c H; cbn in *.
  - now inversion H.
  - destruct b; [discriminate|]. now apply IH.
  - destruct b; [now apply IH|discriminate].
  - destruct b; [now apply IH|discriminate].
Qed.

Section S.
Variable nset : nat.
Variable nlset : nat -> nat.
Notation domain := (domain nset nlset).
Notation trace := (trace nset nlset).
Notation trace1 := (trace1 nset nlset).

Definition ieqb (i j : list nat) : bool := if list_eq_dec Nat.eq_dec i j then true else false.
Definition mem (i : list nat) (l : list (list nat)) : bool := existsb (ieqb i) l.
Lemma ieqb_eq : forall i j, ieqb i j = true <-> i = j.
Proof. intros. unfold ieqb. destruct list_eq_dec; split; congruence. Qed.
Lemma mem_in : forall i l, mem i l = true <-> In i l.
Proof.
  intros. unfold mem. rewrite existsb_exists. split.
  - intros (j & J & E). apply ieqb_eq in E. now subst.
  - intros H. exists i. split; [auto|now apply ieqb_eq].
Qed.
Definition live (e : env) (a : option count) (i : list nat) : bool :=
  match a with None => false | Some c => mem i (domain e c) end.

Lemma row_nodup : forall n, NoDup (row n).
Proof.
  intros n. unfold row. apply Injective_map_NoDup; [intros a b H; congruence|apply seq_NoDup].
Qed.
Lemma lines_nodup : forall (l : list nat), NoDup l ->
  NoDup (flat_map (fun i => map (fun j => [i; j]) (seq 0 (nlset i))) l).
Proof.
  induction l as [|k l IH]; intros N; cbn [flat_map]; [constructor|].
  inversion N; subst.
  assert (A : forall (a b : list (list nat)), NoDup a -> NoDup b -> (forall x, In x a -> ~ In x b) -> NoDup (a ++ b)).
  { induction a as [|x a IHa]; intros b Na Nb D; cbn; [auto|]. inversion Na; subst. constructor.
    - rewrite in_app_iff. intros [Q|Q]; [auto|]. apply (D x); cbn; auto.
    - apply IHa; auto. intros y Y. apply D. now right. }
  apply A.
  - apply Injective_map_NoDup; [intros a b H; congruence|apply seq_NoDup].
  - now apply IH.
  - intros x X Y. apply in_map_iff in X. destruct X as (j & <- & _).
    apply in_flat_map in Y. destruct Y as (i & Q & Y). apply in_map_iff in Y. destruct Y as (j' & E & _).
    inversion E; subst. contradiction.
Qed.
Lemma domain_nodup : forall e c, NoDup (domain e c).
Proof.
  intros e c. destruct c; cbn [HeapModel.domain]; try apply row_nodup.
  - constructor; [cbn; tauto|constructor].
  - apply lines_nodup, seq_NoDup.
Qed.

Lemma kinds_stmt : forall x i k c xs e,
  kinds (x, i) (trace1 e (k, c, xs)) = repeat k (occ x xs * (if mem i (domain e c) then 1 else 0)).
Proof.
  intros x i k c xs e. unfold HeapModel.trace1.
  assert (One_ : forall j, kinds (x, i) (map (fun y => (k, (y, j))) xs) = repeat k (if ieqb i j then occ x xs else 0)).
  { intros j. unfold kinds. induction xs as [|y xs IH]; cbn [map filter occ fst snd].
    - now destruct (ieqb i j).
    - unfold ptr_eqb at 1. cbn [fst snd]. unfold ieqb in *. destruct list_eq_dec as [E|E].
      + destruct (String.eqb x y); cbn [map fst]; rewrite IH; [reflexivity|reflexivity].
      + apply IH. }
  pose proof (domain_nodup e c) as N. induction (domain e c) as [|j l IH].
  - cbn. now rewrite Nat.mul_0_r.
  - cbn [flat_map]. rewrite kinds_app, One_. inversion N; subst. rewrite IH by auto. cbn [mem existsb].
    change (existsb (ieqb i) l) with (mem i l).
    destruct (ieqb i j) eqn:E.
    + apply ieqb_eq in E. subst j. replace (mem i l) with false.
      * rewrite Nat.mul_0_r, Nat.mul_1_r. cbn. now rewrite app_nil_r.
      * symmetry. apply not_true_is_false. intros Q. apply mem_in in Q. contradiction.
    + reflexivity.
Qed.

Lemma live_enter : forall e a i k, live (enter e k) a i = live e a i.
Proof. intros e [[]|] i k; reflexivity. Qed.
Lemma live_fixed : forall e e' a i, fixed a = true -> live e a i = live e' a i.
Proof. intros e e' [[]|] i F; cbn in *; congruence || reflexivity. Qed.

Lemma chk_sound : forall p x a b i, chk x a p = Some b -> forall e,
  go (live e a i) (kinds (x, i) (trace e p)) = Some (live e b i).
Proof.
  induction p as [|s|p IHp q IHq|w p IHp q IHq|t p IHp|es p IHp]; intros x a b i H e; cbn [chk HeapModel.trace] in *.
  - now inversion H.
  - destruct s as [[k c] xs]. cbn [chk1] in H. cbn [HeapModel.trace] . rewrite kinds_stmt.
    destruct (occ x xs) as [|[|o]]; [inversion H; subst; reflexivity| |discriminate].
    rewrite Nat.mul_1_l.
    destruct k, a as [d|]; try discriminate; cbn [live].
    + inversion H; subst. cbn [live]. destruct (mem i (domain e c)); reflexivity.
    + destruct (ceqb c d) eqn:E; [|discriminate]. inversion H; subst. apply ceqb_eq in E. subst d.
      cbn [live]. destruct (mem i (domain e c)); reflexivity.
    + destruct (ceqb c d) eqn:E; [|discriminate]. inversion H; subst. apply ceqb_eq in E. subst d.
      cbn [live]. destruct (mem i (domain e c)); reflexivity.
  - destruct (chk x a p) as [c|] eqn:P; [|discriminate].
    rewrite kinds_app, (go_app _ _ _ _ (IHp _ _ _ i P e)). now apply IHq.
  - destruct (chk x a p) as [c|] eqn:P; [|discriminate]. destruct (chk x a q) as [d|] eqn:Q; [|discriminate].
    destruct (oeqb c d) eqn:E; [|discriminate]. apply oeqb_eq in E. subst d. inversion H; subst.
    destruct (w e); [now apply IHp|now apply IHq].
  - destruct (chk x a p) as [c|] eqn:P; [|discriminate].
    destruct (oeqb a c) eqn:E; [|discriminate]. apply oeqb_eq in E. subst c. inversion H; subst.
    induction (seq 0 (t e)) as [|k l IHl]; [reflexivity|]. cbn [flat_map]. rewrite kinds_app.
    rewrite (go_app _ _ _ (live e b i)); [exact IHl|].
    rewrite <- (live_enter e b i k). now apply IHp.
  - destruct (fixed a) eqn:F; [|discriminate]. destruct (chk x a p) as [c|] eqn:P; [|discriminate].
    destruct (oeqb a c) eqn:E; [|discriminate]. apply oeqb_eq in E. subst c. inversion H; subst.
    induction es as [|e' l IHl]; [reflexivity|]. cbn [flat_map]. rewrite kinds_app.
    rewrite (go_app _ _ _ (live e b i)); [exact IHl|].
    rewrite (live_fixed e e' b i F). now apply IHp.
Qed.

Lemma occ_in : forall x l, occ x l <> 0 -> In x l.
Proof.
  induction l as [|y l IH]; cbn; [congruence|]. destruct (String.eqb_spec x y); [now left|right; auto].
Qed.
Lemma untouched : forall p x i, ~ In x (names p) -> forall e, kinds (x, i) (trace e p) = [].
Proof.
  induction p as [|s|p IHp q IHq|w p IHp q IHq|t p IHp|es p IHp]; intros x i H e; cbn [names HeapModel.trace] in *.
  - reflexivity.
  - destruct s as [[k c] xs]. rewrite kinds_stmt. destruct (occ x xs) eqn:O; [reflexivity|].
    exfalso. apply H, occ_in. congruence.
  - rewrite in_app_iff in H. rewrite kinds_app, IHp, IHq by tauto. reflexivity.
  - rewrite in_app_iff in H. destruct (w e); [apply IHp|apply IHq]; tauto.
  - induction (seq 0 (t e)) as [|k l IHl]; [reflexivity|]. cbn [flat_map]. now rewrite kinds_app, IHp, IHl.
  - induction es as [|k l IHl]; [reflexivity|]. cbn [flat_map]. now rewrite kinds_app, IHp, IHl.
Qed.

(** a name that is only read, in statements of one count *)
Fixpoint reads (x : string) (c : count) (p : prog) : bool :=
  match p with
  | Skip => true
  | Do (k, d, xs) => match occ x xs with 0 => true | _ => match k with Use => ceqb c d | _ => false end end
  | Seq p q | Pick _ p q => reads x c p && reads x c q
  | Loop _ p | Each _ p => reads x c p
  end.
Lemma reads_sound : forall p x i c, reads x c p = true -> fixed (Some c) = true -> forall e, exists k,
  kinds (x, i) (trace e p) = repeat Use k /\ (mem i (domain e c) = false -> k = 0).
Proof.
  assert (A : forall a b, repeat Use a ++ repeat Use b = repeat Use (a + b)) by (intros; now rewrite repeat_app).
  induction p as [|s|p IHp q IHq|w p IHp q IHq|t p IHp|es p IHp]; intros x i c H F e; cbn [reads HeapModel.trace] in *.
  - exists 0. auto.
  - destruct s as [[k d] xs]. rewrite kinds_stmt. destruct (occ x xs) as [|o]; [exists 0; auto|].
    destruct k; try discriminate. apply ceqb_eq in H. subst d.
    exists (S o * (if mem i (domain e c) then 1 else 0)). split; [reflexivity|]. intros ->. lia.
  - apply andb_prop in H. destruct H as [P Q]. destruct (IHp x i c P F e) as (k & K & K0). destruct (IHq x i c Q F e) as (l & L & L0).
    exists (k + l). rewrite kinds_app, K, L, A. split; [reflexivity|]. intros Z. now rewrite K0, L0.
  - apply andb_prop in H. destruct H as [P Q]. destruct (w e); auto.
  - induction (seq 0 (t e)) as [|j l (n & N & N0)]; [exists 0; auto|]. cbn [flat_map].
    destruct (IHp x i c H F (enter e j)) as (k & K & K0). exists (k + n). rewrite kinds_app, K, N, A. split; [reflexivity|].
    intros Z. rewrite N0 by auto. rewrite K0; [reflexivity|]. now destruct c.
  - induction es as [|e' l (n & N & N0)]; [exists 0; auto|]. cbn [flat_map].
    destruct (IHp x i c H F e') as (k & K & K0). exists (k + n). rewrite kinds_app, K, N, A. split; [reflexivity|].
    intros Z. rewrite N0 by auto. rewrite K0; [reflexivity|].
    change (live e' (Some c) i = false). rewrite (live_fixed e' e _ _ F). exact Z.
Qed.
End S.
