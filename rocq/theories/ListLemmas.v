(** Lemmas about lists, array accesses and outcomes used by several proofs. *)
From Coq Require Import ZArith List Bool Lia Arith Permutation.
From Verif Require Import CPrelude.
Import ListNotations.
Open Scope Z_scope.

(** [spec E x Q]: running [x] is never undefined behaviour, exits only if [E]
    holds, and any result satisfies [Q]. *)
Definition spec {A} (E : Prop) (x : outcome A) (Q : A -> Prop) : Prop :=
  match x with Ok a => Q a | Exit => E | UB => False | Stuck => True end.

Lemma spec_ok : forall A E (a : A) (Q : A -> Prop), Q a -> spec E (Ok a) Q.
Proof. auto. Qed.

Lemma spec_bind : forall A B E (x : outcome A) (f : A -> outcome B) P Q,
  spec E x P -> (forall a, P a -> spec E (f a) Q) -> spec E (bind x f) Q.
Proof. intros A B E x f P Q Hx Hf. destruct x; simpl in *; auto. Qed.

Lemma spec_impl : forall A (E E' : Prop) (x : outcome A) (P Q : A -> Prop),
  spec E x P -> (E -> E') -> (forall a, P a -> Q a) -> spec E' x Q.
Proof. intros A E E' x P Q H He Hq. destruct x; simpl in *; auto. Qed.

Lemma spec_elim : forall A E (x : outcome A) Q a, spec E x Q -> x = Ok a -> Q a.
Proof. intros; subst; assumption. Qed.

Lemma get_spec : forall A E (l : list A) n (Q : A -> Prop),
  (n < length l)%nat -> (forall a, nth_error l n = Some a -> Q a) -> spec E (get l n) Q.
Proof.
  intros A E l n Q Hn HQ. unfold get. destruct (nth_error l n) eqn:N; simpl; auto.
  apply nth_error_None in N. lia.
Qed.

Lemma set_nth_some : forall A (l : list A) n a, (n < length l)%nat ->
  exists l', set_nth n a l = Some l'.
Proof.
  induction l; intros n x H; simpl in *; [lia|].
  destruct n as [|n]; simpl; [eauto|]. destruct (IHl n x) as [l' ->]; [lia|]. eauto.
Qed.

Lemma set_nth_length : forall A (l : list A) n a l', set_nth n a l = Some l' ->
  length l' = length l.
Proof.
  induction l; intros n x l' H; simpl in *; [discriminate|].
  destruct n; simpl in H; [injection H as <-; reflexivity|].
  destruct (set_nth n x l) eqn:S; [|discriminate]. injection H as <-. simpl.
  f_equal. eauto.
Qed.

Lemma set_nth_eq : forall A (l : list A) n a l', set_nth n a l = Some l' ->
  nth_error l' n = Some a.
Proof.
  induction l; intros n x l' H; simpl in *; [discriminate|].
  destruct n; simpl in H; [injection H as <-; reflexivity|].
  destruct (set_nth n x l) eqn:S; [|discriminate]. injection H as <-. simpl. eauto.
Qed.

Lemma set_nth_neq : forall A (l : list A) n a l' m, set_nth n a l = Some l' -> m <> n ->
  nth_error l' m = nth_error l m.
Proof.
  induction l; intros n x l' m H Hm; simpl in *; [discriminate|].
  destruct n; simpl in H.
  - injection H as <-. destruct m; [lia|reflexivity].
  - destruct (set_nth n x l) eqn:S; [|discriminate]. injection H as <-.
    destruct m; simpl; [reflexivity|]. eapply IHl; eauto.
Qed.

Lemma set_nth_map : forall A B (f : A -> B) (l : list A) n a l',
  set_nth n a l = Some l' -> (forall x, nth_error l n = Some x -> f a = f x) ->
  map f l' = map f l.
Proof.
  induction l; intros n x l' H Hf; simpl in *; [discriminate|].
  destruct n; simpl in H.
  - injection H as <-. simpl. f_equal. apply Hf. reflexivity.
  - destruct (set_nth n x l) eqn:S; [|discriminate]. injection H as <-. simpl.
    f_equal. eapply IHl; eauto.
Qed.

Lemma set_nth_Forall : forall A (P : A -> Prop) (l : list A) n a l',
  set_nth n a l = Some l' -> Forall P l -> P a -> Forall P l'.
Proof.
  induction l; intros n x l' H HF Hx; simpl in *; [discriminate|].
  inversion HF; subst.
  destruct n; simpl in H.
  - injection H as <-. constructor; auto.
  - destruct (set_nth n x l) eqn:S; [|discriminate]. injection H as <-. constructor; eauto.
Qed.

Lemma put_spec : forall A E (l : list A) n a (Q : list A -> Prop),
  (n < length l)%nat -> (forall l', set_nth n a l = Some l' -> Q l') -> spec E (put l n a) Q.
Proof.
  intros A E l n a Q Hn HQ. unfold put. destruct (set_nth_some _ l n a Hn) as [l' E'].
  rewrite E'. simpl. auto.
Qed.

Lemma nth_error_lt : forall A (l : list A) n a, nth_error l n = Some a -> (n < length l)%nat.
Proof. intros A l n a H. apply nth_error_Some. congruence. Qed.

Lemma Forall_nth_error : forall A (P : A -> Prop) l n a, Forall P l ->
  nth_error l n = Some a -> P a.
Proof. intros A P l n a H E. rewrite Forall_forall in H. apply H. eapply nth_error_In; eauto. Qed.

Lemma nth_error_map_inv : forall A B (f : A -> B) l n b, nth_error (map f l) n = Some b ->
  exists a, nth_error l n = Some a /\ f a = b.
Proof.
  induction l; intros [|n] b H; simpl in *; try discriminate.
  - injection H as <-. eauto.
  - eauto.
Qed.

Lemma nth_error_map_ok : forall A B (f : A -> B) l n a, nth_error l n = Some a ->
  nth_error (map f l) n = Some (f a).
Proof. intros; apply map_nth_error; assumption. Qed.

Lemma foldM_spec : forall A B E (f : B -> A -> outcome B) (I : list A -> B -> Prop) l b,
  I [] b ->
  (forall done a b, In a l -> I done b -> spec E (f b a) (I (done ++ [a]))) ->
  spec E (foldM f l b) (I l).
Proof.
  intros A B E f I l b H0 Hs.
  assert (G : forall rest done b, done ++ rest = l -> I done b -> spec E (foldM f rest b) (I l)).
  { induction rest as [|a rest IH]; intros done b' El Hb.
    - rewrite app_nil_r in El. subst. exact Hb.
    - simpl. eapply spec_bind.
      + apply Hs; [|exact Hb]. rewrite <- El. apply in_or_app. right. left. reflexivity.
      + intros b'' Hb''. apply (IH (done ++ [a])); auto. rewrite <- app_assoc. exact El. }
  apply (G l []); auto.
Qed.

Lemma mapM_spec : forall A B E (f : A -> outcome B) (P : A -> B -> Prop) l,
  (forall a, In a l -> spec E (f a) (P a)) -> spec E (mapM f l) (Forall2 P l).
Proof.
  induction l; intros H; simpl; [constructor|].
  eapply spec_bind; [apply H; left; reflexivity|]. intros b Hb.
  eapply spec_bind; [apply IHl; intros; apply H; right; assumption|].
  intros bs Hbs. constructor; auto.
Qed.

Fixpoint sumZ (l : list Z) : Z := match l with [] => 0 | x :: r => x + sumZ r end.

Lemma sumZ_app : forall l m, sumZ (l ++ m) = sumZ l + sumZ m.
Proof. induction l; intros; simpl; [reflexivity|]. rewrite IHl. lia. Qed.

Lemma Forall2_refl : forall A (R : A -> A -> Prop) l, (forall a, R a a) -> Forall2 R l l.
Proof. induction l; constructor; auto. Qed.

Lemma Forall2_trans : forall A (R : A -> A -> Prop) l m n,
  (forall a b c, R a b -> R b c -> R a c) -> Forall2 R l m -> Forall2 R m n -> Forall2 R l n.
Proof.
  intros A R l m n T H. revert n. induction H; intros n H'; inversion H'; subst; constructor; eauto.
Qed.

Lemma Forall2_nth : forall A B (R : A -> B -> Prop) l m n a,
  Forall2 R l m -> nth_error l n = Some a -> exists b, nth_error m n = Some b /\ R a b.
Proof.
  intros A B R l m n a H. revert n. induction H; intros [|n] E; simpl in *; try discriminate.
  - injection E as <-. eauto.
  - eauto.
Qed.

Lemma Forall2_set_nth : forall A (R : A -> A -> Prop) (l : list A) n a x l',
  (forall y, R y y) -> set_nth n a l = Some l' -> nth_error l n = Some x -> R x a ->
  Forall2 R l l'.
Proof.
  induction l; intros n b x l' Hr H Hx HR; simpl in *; [discriminate|].
  destruct n; simpl in H.
  - injection H as <-. simpl in Hx. injection Hx as ->. constructor; auto.
    apply Forall2_refl; auto.
  - destruct (set_nth n b l) eqn:S; [|discriminate]. injection H as <-. simpl in Hx.
    constructor; eauto.
Qed.
