(** Digits, numerals and what scanf reads. *)
From Coq Require Import ZArith List Bool Lia Ascii.
From Flocq Require Import Core BinarySingleNaN.
From Verif Require Import CPrelude ListLemmas TagModel TagSpec TagProofs ScanModel ScanProofs ScanProofs2 TextModel.
Import ListNotations.
Open Scope Z_scope.

(** ** Digits *)
Lemma code_chr : forall d, 0 <= d < 10 -> code (chr d) = 48 + d.
Proof.
  intros d H. unfold code, chr. rewrite N_ascii_embedding by lia. rewrite Z2N.id by lia. reflexivity.
Qed.
Lemma chr_digit : forall d, 0 <= d < 10 -> isdigit (chr d).
Proof. intros d H. unfold isdigit. rewrite code_chr by auto. lia. Qed.
Lemma mod10 : forall n, 0 <= n mod 10 < 10.
Proof. intros n. apply Z.mod_pos_bound. lia. Qed.
Definition valf (a : Z) (w : list ascii) : Z := fold_left (fun a c => 10 * a + (code c - 48)) w a.
Lemma valf_app : forall w w' a, valf a (w ++ w') = valf (valf a w) w'.
Proof. intros. unfold valf. apply fold_left_app. Qed.
Lemma valf_one : forall a d, 0 <= d < 10 -> valf a [chr d] = 10 * a + d.
Proof. intros a d H. unfold valf. cbn [fold_left]. rewrite code_chr by auto. lia. Qed.
Lemma dec_aux_ok : forall fuel n acc, 0 <= n < 2 ^ (Z.of_nat fuel) -> (1 <= fuel)%nat ->
  exists w, dec_aux fuel n acc = w ++ acc /\ decimal w n.
Proof.
  induction fuel as [|f IH]; intros n acc B F; [lia|]. cbn [dec_aux].
  assert (M := mod10 n). destruct (Z.ltb_spec n 10) as [L|L].
  - exists [chr (n mod 10)]. split; [reflexivity|]. split; [discriminate|]. split; [constructor; [apply chr_digit; auto|constructor]|].
    change (valf 0 [chr (n mod 10)] = n). rewrite valf_one by auto. rewrite Z.mod_small by lia. lia.
  - assert (F1 : (1 <= f)%nat). { destruct f; [|lia]. change (2 ^ Z.of_nat 1) with 2 in B. lia. }
    destruct (IH (n / 10) (chr (n mod 10) :: acc)) as (w & E & (NE & D & V)); [|exact F1|].
    { rewrite Nat2Z.inj_succ, Z.pow_succ_r in B by lia. split; [apply Z.div_pos; lia|]. apply Z.div_lt_upper_bound; lia. }
    exists (w ++ [chr (n mod 10)]). split; [rewrite E, <- app_assoc; reflexivity|].
    split; [destruct w; discriminate|]. split; [apply Forall_app; split; [exact D|constructor; [apply chr_digit; auto|constructor]]|].
    change (valf 0 (w ++ [chr (n mod 10)]) = n). rewrite valf_app. change (valf 0 w) with (dec_value w). rewrite V, valf_one by auto.
    rewrite (Z.div_mod n 10) at 3 by lia. lia.
Qed.
Lemma print_d_ok : forall n, 0 <= n -> decimal (print_d n) n.
Proof.
  intros n H. unfold print_d. destruct (dec_aux_ok (S (Z.to_nat (Z.log2 n))) n []) as (w & E & D); [|lia|].
  - rewrite Nat2Z.inj_succ, Z2Nat.id by apply Z.log2_nonneg. split; [exact H|].
    destruct (Z.eq_dec n 0) as [->|]; [reflexivity|]. apply Z.log2_spec. lia.
  - rewrite E, app_nil_r. exact D.
Qed.
Lemma pad_ok : forall k n acc, 0 <= n -> exists w, pad k n acc = w ++ acc /\ Forall isdigit w /\ length w = k /\
  forall a, valf a w = a * 10 ^ Z.of_nat k + n mod 10 ^ Z.of_nat k.
Proof.
  induction k as [|k IH]; intros n acc H.
  - exists []. split; [reflexivity|]. split; [constructor|]. split; [reflexivity|]. intros a. cbn. rewrite Z.mod_1_r. lia.
  - cbn [pad]. assert (M := mod10 n). destruct (IH (n / 10) (chr (n mod 10) :: acc)) as (w & E & D & L & V); [apply Z.div_pos; lia|].
    exists (w ++ [chr (n mod 10)]). split; [rewrite E, <- app_assoc; reflexivity|].
    split; [apply Forall_app; split; [exact D|constructor; [apply chr_digit; auto|constructor]]|].
    split; [rewrite app_length, L; simpl; lia|]. intros a. rewrite valf_app, V, valf_one by auto.
    rewrite Nat2Z.inj_succ, Z.pow_succ_r by lia.
    assert (E2 : n mod (10 * 10 ^ Z.of_nat k) = n mod 10 + 10 * ((n / 10) mod 10 ^ Z.of_nat k)) by (apply Z.rem_mul_r; lia).
    rewrite E2. ring.
Qed.
Lemma pad_len : forall k n, 0 <= n -> length (pad k n []) = k.
Proof. intros k n H. destruct (pad_ok k n [] H) as (w & E & _ & L & _). rewrite E, app_nil_r. exact L. Qed.

(** ** Numerals: an optional minus, digits, optionally a point with digits,
    optionally an exponent. *)
Definition optional_digits (w : list ascii) (f : list ascii) : Prop := f = [] /\ w = [] \/ f = DOT :: w /\ Forall isdigit w.
Definition optional_exponent (e : Z) (f : list ascii) : Prop :=
  f = [] /\ e = 0 \/
  exists w, Forall isdigit w /\ w <> [] /\ (f = "e"%char :: "+"%char :: w /\ e = dec_value w \/ f = "e"%char :: "-"%char :: w /\ e = - dec_value w).
Definition numeral (t : list ascii) (x : b64) : Prop :=
  exists s w w' f e g, w <> [] /\ Forall isdigit w /\ optional_digits w' f /\ optional_exponent e g /\
    t = minus s ++ w ++ f ++ g /\ x = to_b64 s (dec_value (w ++ w')) (e - Z.of_nat (length w')).

Lemma digit_numchar : forall c, isdigit c -> numchar c.
Proof.
  intros c D. split; [apply digit_nospace; auto|]. destruct D as [D1 D2].
  repeat split; intros ->; unfold code in *; simpl in *; lia.
Qed.
Lemma digits_numchar : forall w, Forall isdigit w -> Forall numchar w.
Proof. intros w H. eapply Forall_impl; [|exact H]. apply digit_numchar. Qed.
Ltac nch := split; [reflexivity|repeat split; discriminate].
Lemma numeral_plain : plain_numerals numeral.
Proof.
  intros t x (s & w & w' & f & e & g & NE & D & OF & OE & -> & _). split.
  - destruct s; [discriminate|]. destruct w; [congruence|discriminate].
  - apply Forall_app. split; [destruct s; [constructor; [nch|constructor]|constructor]|].
    apply Forall_app. split; [apply digits_numchar; auto|]. apply Forall_app. split.
    + destruct OF as [[-> _]|[-> D']]; [constructor|]. constructor; [nch|apply digits_numchar; auto].
    + destruct OE as [[-> _]|(v & D' & _ & [[-> _]|[-> _]])]; [constructor| |]; (constructor; [nch|]; constructor; [nch|apply digits_numchar; auto]).
Qed.
Lemma ends_nodigit : forall r, ends r -> no_digit r.
Proof.
  intros [|c r] H; [exact I|]. intros D. destruct H as [H|[->| ->]].
  - apply digit_nospace in D. congruence.
  - destruct D. unfold code in *. simpl in *. lia.
  - destruct D. unfold code in *. simpl in *. lia.
Qed.
Lemma no_digit_e : forall r, no_digit ("e"%char :: r). Proof. intros r [D1 D2]. unfold code in *. simpl in *. lia. Qed.
Lemma no_digit_dot : forall r, no_digit (DOT :: r). Proof. intros r [D1 D2]. unfold code in *. simpl in *. lia. Qed.
Lemma exponent_ok : forall e g r, optional_exponent e g -> ends r -> exponent (g ++ r) = Some (e, r) /\ no_digit (g ++ r) /\
  match g ++ r with c :: _ => c <> DOT | [] => True end.
Proof.
  intros e g r OE E. pose proof (ends_nodigit r E) as ND. destruct OE as [[-> ->]|(v & D & NE & OE)].
  - cbn [app]. split; [|split; [exact ND|]].
    + unfold exponent. destruct r as [|c r]; [reflexivity|]. destruct E as [E|[->| ->]]; [|reflexivity|reflexivity].
      destruct (ascii_dec c "e") as [->|]; [discriminate E|]. destruct (ascii_dec c "E") as [->|]; [discriminate E|]. reflexivity.
    + destruct r as [|c r]; [exact I|]. destruct E as [E|[->| ->]]; [|discriminate|discriminate]. intros ->. discriminate E.
  - assert (X : digits 0 0 (v ++ r) = (dec_value v, length v, r)) by (rewrite digits_ok by auto; reflexivity).
    destruct v as [|c v]; [congruence|]. destruct OE as [[-> ->]|[-> ->]]; (split; [|split; [apply no_digit_e|discriminate]]);
      cbn [app exponent]; destruct (ascii_dec "e" "e") as [_|N]; try congruence.
    + destruct (ascii_dec "+" "-") as [N|_]; [discriminate N|]. destruct (ascii_dec "+" "+") as [_|N]; [|congruence].
      change (c :: v ++ r) with ((c :: v) ++ r). rewrite X. cbn [length]. rewrite Z.mul_1_l. reflexivity.
    + destruct (ascii_dec "-" "-") as [_|N]; [|congruence].
      change (c :: v ++ r) with ((c :: v) ++ r). rewrite X. cbn [length]. do 2 f_equal; lia.
Qed.
Lemma scan_lf_ok : reads_numbers numeral scan_lf.
Proof.
  intros sp t r x N SP E. pose proof (numeral_plain t x N) as [NE0 NC0].
  destruct N as (s & w & w' & f & e & g & NE & D & OF & OE & T & ->).
  unfold scan_lf. rewrite skip_space_app by auto.
  rewrite skip_word; [|exact NE0|eapply Forall_impl; [|exact NC0]; intros c (A & _); exact A].
  destruct (exponent_ok e g r OE E) as (X & ND & NDOT).
  assert (ND1 : no_digit (f ++ g ++ r)).
  { destruct OF as [[-> _]|[-> _]]; [exact ND|apply no_digit_dot]. }
  assert (SG : match t ++ r with
     | c :: q => if ascii_dec c "-" then (true, q) else if ascii_dec c "+" then (false, q) else (false, t ++ r)
     | [] => (false, [])
     end = (s, w ++ f ++ g ++ r)).
  { subst t. rewrite <- !app_assoc. destruct s; cbn [minus app].
    - destruct (ascii_dec "-" "-"); [reflexivity|congruence].
    - destruct w as [|c w]; [congruence|]. cbn [app]. assert (Dc : isdigit c) by (inversion D; auto). destruct Dc as [D1 D2].
      destruct (ascii_dec c "-") as [->|]; [unfold code in *; simpl in *; lia|].
      destruct (ascii_dec c "+") as [->|]; [unfold code in *; simpl in *; lia|]. reflexivity. }
  cbn zeta. rewrite SG. rewrite digits_ok by auto. cbn [Nat.add].
  assert (M : match f ++ g ++ r with
     | c :: q => if ascii_dec c DOT then digits (fold_left (fun a c => 10 * a + (code c - 48)) w 0) 0 q else (fold_left (fun a c => 10 * a + (code c - 48)) w 0, O, f ++ g ++ r)
     | [] => (fold_left (fun a c => 10 * a + (code c - 48)) w 0, O, [])
     end = (dec_value (w ++ w'), length w', g ++ r)).
  { destruct OF as [[-> ->]|[-> D']].
    - cbn [app]. rewrite app_nil_r. destruct (g ++ r) as [|c q]; [reflexivity|]. destruct (ascii_dec c DOT); [congruence|reflexivity].
    - cbn [app]. destruct (ascii_dec DOT DOT); [|congruence]. rewrite digits_ok by auto. cbn [Nat.add]. unfold dec_value. rewrite fold_left_app. reflexivity. }
  rewrite M, X. destruct w as [|c w]; [congruence|]. reflexivity.
Qed.

(** ** The printed texts are numerals *)
Lemma fixed6_numeral : forall s n, 0 <= n -> numeral (fixed6 s n) (to_b64 s n (-6)).
Proof.
  intros s n H. destruct (print_d_ok (n / 10 ^ 6)) as (NE & D & V); [apply Z.div_pos; lia|].
  destruct (pad_ok 6 n [] H) as (w' & E & D' & L & V'). rewrite app_nil_r in E.
  exists s, (print_d (n / 10 ^ 6)), w', (DOT :: w'), 0, [].
  split; [exact NE|]. split; [exact D|]. split; [right; auto|]. split; [left; auto|]. split.
  - unfold fixed6. rewrite E, app_nil_r. reflexivity.
  - rewrite L. change (0 - Z.of_nat 6) with (-6). f_equal.
    change (n = valf 0 (print_d (n / 10 ^ 6) ++ w')). rewrite valf_app, V'. change (valf 0 (print_d (n / 10 ^ 6))) with (dec_value (print_d (n / 10 ^ 6))).
    rewrite V. change (Z.of_nat 6) with 6. rewrite Z.mul_comm. apply Z.div_mod. lia.
Qed.
Lemma two_digits_ok : forall n, 0 <= n -> decimal (two_digits n) n.
Proof.
  intros n H. unfold two_digits. destruct (Z.ltb_spec n 10) as [L|L]; [|apply print_d_ok; auto].
  destruct (pad_ok 2 n [] H) as (w & E & D & LW & V). rewrite app_nil_r in E. rewrite E.
  split; [destruct w; [discriminate|discriminate]|]. split; [exact D|]. change (valf 0 w = n). rewrite V.
  change (10 ^ Z.of_nat 2) with 100. rewrite Z.mod_small by lia. lia.
Qed.
Lemma sci6_numeral : forall s n k, 0 <= n < 10 ^ 7 -> numeral (sci6 s n k) (to_b64 s n (k - 6)).
Proof.
  intros s n k H. assert (HQ : 0 <= n / 10 ^ 6 < 10). { split; [apply Z.div_pos; lia|apply Z.div_lt_upper_bound; lia]. }
  destruct (pad_ok 6 n []) as (w' & E & D' & L & V'); [lia|]. rewrite app_nil_r in E.
  destruct (two_digits_ok (Z.abs k)) as (NE2 & D2 & V2); [lia|].
  exists s, [chr (n / 10 ^ 6)], w', (DOT :: w'), k, (tail_exp k).
  split; [discriminate|]. split; [constructor; [apply chr_digit; auto|constructor]|]. split; [right; auto|]. split; [|split].
  - right. exists (two_digits (Z.abs k)). split; [exact D2|]. split; [exact NE2|]. rewrite V2.
    destruct (Z.ltb_spec k 0); [right|left]; (split; [unfold tail_exp|lia]).
    + destruct (Z.ltb_spec k 0); [reflexivity|lia].
    + destruct (Z.ltb_spec k 0); [lia|reflexivity].
  - unfold sci6. rewrite E. reflexivity.
  - rewrite L. change (Z.of_nat 6) with 6. f_equal. change (n = valf 0 ([chr (n / 10 ^ 6)] ++ w')). rewrite valf_app, V', valf_one by auto.
    change (Z.of_nat 6) with 6. rewrite Z.mul_0_r, Z.add_0_l, Z.mul_comm. apply Z.div_mod. lia.
Qed.
