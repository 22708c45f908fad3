(** Header, data rows, prior file. *)
From Coq Require Import ZArith List Bool Lia Ascii.
From Verif Require Import CPrelude ListLemmas TagModel TagSpec TagProofs ScanModel ScanProofs.
Import ListNotations.
Open Scope Z_scope.

(** ** Decimal numbers *)
Definition code (c : ascii) : Z := Z.of_N (N_of_ascii c).
Definition isdigit (c : ascii) : Prop := 48 <= code c <= 57.
Definition dec_value (w : list ascii) : Z := fold_left (fun a c => 10 * a + (code c - 48)) w 0.
Definition decimal (w : list ascii) (n : Z) : Prop := w <> [] /\ Forall isdigit w /\ dec_value w = n.
Definition no_digit (s : list ascii) : Prop := match s with [] => True | c :: _ => ~ isdigit c end.

Lemma digit_yes : forall c, isdigit c -> digit c = Some (code c - 48).
Proof. intros c [H1 H2]. unfold digit. fold (code c). destruct (Z.leb_spec 48 (code c)), (Z.leb_spec (code c) 57); try lia. reflexivity. Qed.
Lemma digit_no : forall c, ~ isdigit c -> digit c = None.
Proof. intros c H. unfold digit, isdigit in *. fold (code c). destruct (Z.leb_spec 48 (code c)), (Z.leb_spec (code c) 57); try lia; reflexivity. Qed.
Lemma digits_ok : forall w acc k rest, Forall isdigit w -> no_digit rest ->
  digits acc k (w ++ rest) = (fold_left (fun a c => 10 * a + (code c - 48)) w acc, (k + length w)%nat, rest).
Proof.
  induction w; intros acc k rest H N.
  - simpl. rewrite Nat.add_0_r. destruct rest; [reflexivity|]. simpl in N. simpl. rewrite digit_no by auto. reflexivity.
  - inversion H; subst. simpl. rewrite digit_yes by auto. rewrite IHw by auto. simpl. rewrite Nat.add_succ_r. reflexivity.
Qed.
Lemma fold_dec_nonneg : forall w a, Forall isdigit w -> 0 <= a -> 0 <= fold_left (fun a c => 10 * a + (code c - 48)) w a.
Proof. induction w as [|c w IH]; intros b H B; cbn [fold_left]; auto. inversion H as [|? ? D F]; subst. unfold isdigit in D. apply IH; [exact F|lia]. Qed.
Lemma decimal_nonneg : forall w n, decimal w n -> 0 <= n.
Proof. intros w n (_ & D & <-). apply fold_dec_nonneg; auto. lia. Qed.
Lemma isspace_code : forall c, isspace c = true -> code c = 32 \/ 9 <= code c <= 13.
Proof.
  intros c H. unfold isspace, code in *. apply orb_true_iff in H as [H|H].
  - apply N.eqb_eq in H. rewrite H. auto.
  - apply andb_true_iff in H as [H1 H2]. apply N.leb_le in H1, H2. right. lia.
Qed.
Lemma digit_nospace : forall c, isdigit c -> isspace c = false.
Proof. intros c [H1 H2]. destruct (isspace c) eqn:E; auto. apply isspace_code in E. lia. Qed.
Lemma code_ne : forall c d, code c <> code d -> c <> d.
Proof. intros c d H ->. auto. Qed.
Lemma skip_space_app : forall sp r, space sp -> skip_space (sp ++ r) = skip_space r.
Proof. induction sp; intros r H; simpl; auto. inversion H; subst. rewrite H2. auto. Qed.
Lemma skip_space_id : forall c r, isspace c = false -> skip_space (c :: r) = c :: r.
Proof. intros c r H. simpl. rewrite H. reflexivity. Qed.
Lemma skip_word : forall w r, w <> [] -> Forall (fun c => isspace c = false) w -> skip_space (w ++ r) = w ++ r.
Proof. intros [|c w] r H F; [congruence|]. inversion F; subst. simpl. rewrite H2. reflexivity. Qed.

Lemma scan_d_ok : forall sp w rest n, space sp -> decimal w n -> n < 2 ^ 31 -> no_digit rest ->
  scan_d (sp ++ w ++ rest) = Ok (Some (n, rest)).
Proof.
  intros sp w rest n SP (NE & D & E) B ND. unfold scan_d. rewrite skip_space_app by auto.
  rewrite skip_word; auto. 2: { eapply Forall_impl; [|exact D]. intros; apply digit_nospace; auto. }
  destruct w as [|c w]; [congruence|]. cbn [app].
  assert (Dc : isdigit c) by (inversion D; auto).
  destruct (ascii_dec c "-") as [X|]. { exfalso. subst c. unfold isdigit, code in Dc. simpl in Dc. lia. }
  destruct (ascii_dec c "+") as [X|]. { exfalso. subst c. unfold isdigit, code in Dc. simpl in Dc. lia. }
  change (c :: w ++ rest) with ((c :: w) ++ rest). rewrite digits_ok by auto. unfold dec_value in E. rewrite E. cbn [length Nat.add].
  assert (0 <= n) by (rewrite <- E; apply fold_dec_nonneg; auto; lia).
  rewrite Z.mul_1_l. destruct (Z.leb_spec (- 2 ^ 31) n), (Z.ltb_spec n (2 ^ 31)); try lia. reflexivity.
Qed.

(** ** Header *)
Definition blank (s : list ascii) : Prop := Forall (fun c => c = BL \/ c = TAB) s.
Definition field (f : list ascii) (n : Z) : Prop :=
  exists b w b', f = b ++ w ++ b' /\ blank b /\ decimal w n /\ blank b'.
Fixpoint join (fs : list (list ascii)) : list ascii :=
  match fs with [] => [] | [f] => f | f :: r => f ++ COLON :: join r end.
Arguments join : simpl never.
Lemma join_cons : forall f g r, join (f :: g :: r) = f ++ COLON :: join (g :: r). Proof. reflexivity. Qed.
Lemma join_one : forall f, join [f] = f. Proof. reflexivity. Qed.
Definition header_line (fs : list (list ascii)) : list ascii := HASH :: join fs ++ [nl].

Lemma blank_space : forall b, blank b -> space b.
Proof. intros b H. eapply Forall_impl; [|exact H]. intros c [->| ->]; reflexivity. Qed.
Lemma blank_app : forall b b', blank b -> blank b' -> blank (b ++ b'). Proof. intros. apply Forall_app; auto. Qed.
Lemma skip_blank_app : forall b r, blank b -> skip_blank (b ++ r) = skip_blank r.
Proof.
  induction b; intros r H; auto. inversion H as [|? ? X Y]; subst. cbn [app skip_blank].
  destruct X as [->| ->]; [destruct (ascii_dec BL BL); [auto|congruence]|].
  destruct (ascii_dec TAB BL); [auto|]. destruct (ascii_dec TAB TAB); [auto|congruence].
Qed.
Lemma skip_blank_digit : forall c r, isdigit c -> skip_blank (c :: r) = c :: r.
Proof.
  intros c r D. cbn [skip_blank]. destruct (ascii_dec c BL) as [->|]. { destruct D. unfold code in *. simpl in *. lia. }
  destruct (ascii_dec c TAB) as [->|]; [destruct D; unfold code in *; simpl in *; lia|reflexivity].
Qed.
Definition quiet (s : list ascii) : Prop := Forall (fun c => c <> COLON /\ c <> nl /\ c <> NUL) s.
Lemma digit_quiet : forall w, Forall isdigit w -> quiet w.
Proof.
  intros w H. eapply Forall_impl; [|exact H]. intros c [A B]. repeat split; intros ->; unfold code in *; simpl in *; lia.
Qed.
Lemma blank_quiet : forall w, blank w -> quiet w.
Proof. intros w H. eapply Forall_impl; [|exact H]. intros c [->| ->]; repeat split; discriminate. Qed.
Lemma field_quiet : forall f n, field f n -> quiet f.
Proof.
  intros f n (b & w & b' & -> & B & (_ & D & _) & B'). apply Forall_app. split; [apply blank_quiet; auto|].
  apply Forall_app. split; [apply digit_quiet; auto|apply blank_quiet; auto].
Qed.
Lemma quiet_nc : forall w, quiet w -> Forall (fun x => x <> COLON) w.
Proof. intros w H. eapply Forall_impl; [|exact H]. intros c (A & _). exact A. Qed.
Lemma no_digit_blank : forall b r, blank b -> no_digit r -> no_digit (b ++ r).
Proof.
  intros [|c b] r H N; auto. inversion H as [|? ? X _]; subst. intros [A B]. destruct X as [->| ->]; unfold code in *; simpl in *; lia.
Qed.
Lemma field_scan : forall f n r, field f n -> n < 2 ^ 31 -> no_digit r -> exists b, blank b /\ scan_d (f ++ r) = Ok (Some (n, b ++ r)).
Proof.
  intros f n r (b & w & b' & -> & B & D & B') L N. exists b'. split; auto. rewrite <- !app_assoc.
  apply scan_d_ok; auto; [apply blank_space; auto|apply no_digit_blank; auto].
Qed.
Lemma no_digit_colon : forall r, no_digit (COLON :: r).
Proof. intros r [A B]. unfold code in *. simpl in *. lia. Qed.
Lemma no_digit_nl : forall r, no_digit (nl :: r).
Proof. intros r [A B]. unfold code in *. simpl in *. lia. Qed.

(** the entry at the head of a list of entries *)
Lemma head_scan : forall f fs n, field f n -> n < 2 ^ 31 -> exists r, scan_d (join (f :: fs) ++ [nl]) = Ok (Some (n, r)).
Proof.
  intros f [|g fs] n F B.
  - rewrite join_one. destruct (field_scan f n [nl] F B (no_digit_nl [])) as (b & _ & E). eauto.
  - rewrite join_cons, <- app_assoc. cbn [app].
    destruct (field_scan f n (COLON :: join (g :: fs) ++ [nl]) F B (no_digit_colon _)) as (b & _ & E). eauto.
Qed.
Lemma head_strchr : forall f fs n, field f n ->
  strchr COLON (join (f :: fs) ++ [nl]) = match fs with [] => None | _ => Some (COLON :: join fs ++ [nl]) end.
Proof.
  intros f [|g fs] n F; pose proof (quiet_nc _ (field_quiet _ _ F)) as Q.
  - rewrite join_one, strchr_skip by auto. reflexivity.
  - rewrite join_cons, <- app_assoc, strchr_skip by auto. cbn [app]. apply strchr_here.
Qed.
(** the same after removing blanks *)
Lemma head_blank : forall f fs n, field f n -> exists f' c r, field f' n /\ skip_blank (join (f :: fs) ++ [nl]) = join (f' :: fs) ++ [nl] /\
  join (f' :: fs) ++ [nl] = c :: r /\ isdigit c.
Proof.
  intros f fs n (b & w & b' & -> & B & (NE & D & E) & B'). destruct w as [|c w]; [congruence|].
  assert (Dc : isdigit c) by (inversion D; auto).
  set (f' := (c :: w) ++ b').
  assert (F' : field f' n). { exists [], (c :: w), b'. repeat split; auto. constructor. }
  exists f', c. assert (J : join ((b ++ f') :: fs) = b ++ join (f' :: fs)).
  { destruct fs; [reflexivity|]. rewrite !join_cons, <- app_assoc. reflexivity. }
  assert (X : exists r, join (f' :: fs) ++ [nl] = c :: r).
  { destruct fs; [rewrite join_one|rewrite join_cons]; unfold f'; cbn [app]; eauto. }
  destruct X as [r X]. exists r. split; [exact F'|split; [|split; [exact X|exact Dc]]].
  rewrite J, <- app_assoc, skip_blank_app by auto. rewrite X. apply skip_blank_digit; auto.
Qed.
Definition pos_count (ns : list Z) : nat := length (filter (fun n => 0 <? n) ns).
Lemma entries1_ok : forall fs ns, Forall2 field fs ns -> Forall (fun n => n < 2 ^ 31) ns -> forall fuel np k, fs <> [] -> (length fs <= fuel)%nat ->
  exists np', entries1 fuel (join fs ++ [nl]) np k = Ok (Some np', (k + pos_count ns)%nat).
Proof.
  intros fs ns F. induction F as [|f n fs ns Fn F IH]; intros B fuel np k NE L; [congruence|].
  destruct fuel; [simpl in L; lia|]. inversion B as [|? ? Bn B']; subst.
  cbn [entries1]. destruct (head_blank f fs n Fn) as (f' & c & r & F' & -> & E & Dc).
  pose proof (head_scan f' fs n F' Bn) as (r' & SC). pose proof (head_strchr f' fs n F') as SR. rewrite E in *.
  destruct (ascii_dec c nl) as [X|]; [exfalso; subst; destruct Dc; unfold code in *; simpl in *; lia|].
  destruct (ascii_dec c CR) as [X|]; [exfalso; subst; destruct Dc; unfold code in *; simpl in *; lia|].
  rewrite SC. cbn [bind]. rewrite SR. clear SR.
  unfold pos_count. cbn [filter]. destruct fs as [|g fs].
  - inversion F; subst. exists n. cbn. destruct (0 <? n); cbn; do 2 f_equal; lia.
  - destruct (IH B' fuel (Some n) (if 0 <? n then S k else k)) as (np' & ->); [discriminate|simpl in *; lia|].
    exists np'. unfold pos_count. destruct (0 <? n); cbn [length]; do 2 f_equal; lia.
Qed.
Definition known (n : Z) : option Z := if 0 <? n then Some n else None.
Lemma entries2_ok : forall fs ns, Forall2 field fs ns -> Forall (fun n => n < 2 ^ 31) ns -> forall m p0 np, (m <= length fs)%nat ->
  Forall (fun x => x <> COLON) p0 ->
  exists np', entries2 m (p0 ++ match fs with [] => [nl] | _ => COLON :: join fs ++ [nl] end) np = Ok (np', map known (firstn m ns)).
Proof.
  intros fs ns F. induction F as [|f n fs ns Fn F IH]; intros B m p0 np L Q.
  - assert (m = 0%nat) by (simpl in L; lia). subst. simpl. eauto.
  - destruct m; [simpl; eauto|]. inversion B as [|? ? Bn B']; subst. cbn [entries2]. rewrite strchr_skip by auto. rewrite strchr_here.
    destruct (head_scan f fs n Fn Bn) as (r' & ->). cbn [bind].
    pose proof (quiet_nc _ (field_quiet _ _ Fn)) as Qf.
    destruct (IH B' m f (Some n)) as (np' & E); [simpl in L; lia|auto|].
    assert (X : join (f :: fs) ++ [nl] = f ++ match fs with [] => [nl] | _ => COLON :: join fs ++ [nl] end).
    { destruct fs; [rewrite join_one; reflexivity|]. rewrite join_cons, <- app_assoc. reflexivity. }
    rewrite X, E. cbn [bind]. exists np'. reflexivity.
Qed.

Lemma quiet_join : forall fs ns, Forall2 field fs ns -> Forall (fun c => c <> nl /\ c <> NUL) (join fs).
Proof.
  intros fs ns F. induction F as [|f n fs ns Fn F IH]; [constructor|].
  assert (Q : Forall (fun c => c <> nl /\ c <> NUL) f) by (eapply Forall_impl; [|exact (field_quiet _ _ Fn)]; intros c (_ & A); exact A).
  destruct fs; [rewrite join_one; exact Q|]. rewrite join_cons. apply Forall_app. split; auto. constructor; [split; discriminate|auto].
Qed.
Lemma header_fgets : forall fs ns r, Forall2 field fs ns -> (length (header_line fs) <= 255)%nat ->
  fgets 255 (header_line fs ++ r) = (header_line fs, r, false) /\ cstr (header_line fs) = header_line fs.
Proof.
  intros fs ns r F L. pose proof (quiet_join fs ns F) as Q. unfold header_line in *.
  split.
  - replace ((HASH :: join fs ++ [nl]) ++ r) with ((HASH :: join fs) ++ nl :: r) by (cbn [app]; rewrite <- app_assoc; reflexivity).
    rewrite fgets_line; [reflexivity| |].
    + constructor; [reflexivity|]. eapply Forall_impl; [|exact Q]. intros c [A _]. unfold is_nl. destruct (ascii_dec c nl); [congruence|reflexivity].
    + cbn [length] in *. rewrite app_length in L. simpl in L. lia.
  - apply cstr_id. intros [H|H]; [discriminate H|]. apply in_app_iff in H as [H|[H|[]]]; [|discriminate H].
    rewrite Forall_forall in Q. apply Q in H. destruct H. congruence.
Qed.
(** one set: continuum field and line fields *)
Lemma header1_ok : forall vmap f0 fs n0 ns np, field f0 n0 -> Forall2 field fs ns -> Forall (fun n => n < 2 ^ 31) (n0 :: ns) ->
  (vmap = true -> n0 = 0) ->
  exists np', header1 vmap (header_line (f0 :: fs)) np = Ok (np', (Some n0, pos_count ns)).
Proof.
  intros vmap f0 fs n0 ns np F0 F B VM. inversion B as [|? ? B0 B']; subst. unfold header1, header_line.
  destruct (head_scan f0 fs n0 F0 B0) as (r & ->). cbn [bind].
  rewrite (head_strchr f0 fs n0 F0). destruct fs as [|f fs].
  - inversion F; subst. exists np. reflexivity.
  - destruct (entries1_ok (f :: fs) ns F B' (S (length (join (f :: fs) ++ [nl]))) np 0) as (np' & ->).
    + discriminate.
    + assert (X : forall l ns, Forall2 field l ns -> (length l <= S (length (join l)))%nat).
      { clear. intros l ns F. induction F as [|a n l ns Fa F IH]; [simpl; lia|]. destruct l; [simpl; lia|].
        rewrite join_cons, app_length. cbn [length] in *. lia. }
      specialize (X _ _ F). rewrite app_length. cbn [length] in *. lia.
    + cbn [bind]. exists (Some np'). destruct vmap; [|reflexivity]. rewrite VM by auto. reflexivity.
Qed.

(** All header lines.  A header is a list of sets, each a list of fields, the
    first for the continuum. *)
Definition set_ok (fs : list (list ascii)) (ns : list Z) : Prop :=
  Forall2 field fs ns /\ Forall (fun n => n < 2 ^ 31) ns /\ (length (header_line fs) <= 255)%nat /\ ns <> [].
Lemma headers1_ok : forall vmap sets nss, Forall2 set_ok sets nss -> (vmap = true -> Forall (fun ns => hd 0 ns = 0) nss) ->
  forall body buf np, exists np', headers1 vmap (length sets) (concat (map header_line sets) ++ body) buf np =
    Ok (np', map (fun ns => (Some (hd 0 ns), pos_count (tl ns))) nss).
Proof.
  intros vmap sets nss F. induction F as [|fs ns sets nss (F0 & B & L & NE) F IH]; intros VM body buf np; [simpl; eauto|].
  cbn [length headers1 map concat]. rewrite <- app_assoc.
  destruct (header_fgets fs ns (concat (map header_line sets) ++ body) F0 L) as [E1 E2]. rewrite E1.
  assert (HL : header_line fs <> []) by discriminate. destruct (header_line fs) as [|c0 l0] eqn:EH; [congruence|]. rewrite <- EH in *.
  rewrite E2. destruct ns as [|n0 ns]; [congruence|]. inversion F0 as [|f0 ? fs' ? Ff0 Ffs]; subst.
  destruct (header1_ok vmap f0 fs' n0 ns np Ff0 Ffs B) as (np1 & ->).
  { intros V. specialize (VM V). inversion VM; auto. }
  cbn [bind]. destruct (IH (fun V => match VM V in Forall _ l return match l with [] => True | _ :: r => Forall _ r end with Forall_nil _ => I | Forall_cons _ _ h => h end) body (header_line (f0 :: fs')) np1) as (np2 & ->).
  cbn [bind]. exists np2. reflexivity.
Qed.
Lemma headers2_ok : forall sets nss, Forall2 set_ok sets nss -> forall body buf np,
  headers2 (map (fun ns => (Some (hd 0 ns), pos_count (tl ns))) nss) (concat (map header_line sets) ++ body) buf np =
  Ok (body, map (fun ns => (Some (hd 0 ns), map known (firstn (pos_count (tl ns)) (tl ns)))) nss).
Proof.
  intros sets nss F. induction F as [|fs ns sets nss (F0 & B & L & NE) F IH]; intros body buf np; [reflexivity|].
  cbn [map headers2 concat]. rewrite <- app_assoc.
  destruct (header_fgets fs ns (concat (map header_line sets) ++ body) F0 L) as [E1 E2]. rewrite E1.
  destruct ns as [|n0 ns]; [congruence|]. inversion F0 as [|f0 ? fs' ? Ff0 Ffs]; subst. inversion B as [|? ? B0 B']; subst.
  assert (HL : match header_line (f0 :: fs') with [] => buf | _ => header_line (f0 :: fs') end = header_line (f0 :: fs')) by reflexivity.
  rewrite HL, E2. unfold header_line at 1.
  destruct (entries2_ok fs' ns Ffs B' (pos_count ns) f0 np) as (np' & E).
  - unfold pos_count. assert (length fs' = length ns) by (clear - Ffs; induction Ffs; simpl; congruence). rewrite H.
    clear. induction ns; simpl; [lia|]. destruct (0 <? a); simpl; lia.
  - apply quiet_nc, (field_quiet _ _ Ff0).
  - assert (X : join (f0 :: fs') ++ [nl] = f0 ++ match fs' with [] => [nl] | _ => COLON :: join fs' ++ [nl] end).
    { destruct fs'; [rewrite join_one; reflexivity|]. rewrite join_cons, <- app_assoc. reflexivity. }
    cbn [hd tl]. rewrite X, E. cbn [bind]. rewrite IH. cbn [bind]. reflexivity.
Qed.
Lemma read_header_ok : forall vmap f0 sets nss body, field f0 (Z.of_nat (length sets)) -> Z.of_nat (length sets) < 2 ^ 31 ->
  (length (header_line [f0]) <= 255)%nat -> Forall2 set_ok sets nss -> (vmap = true -> Forall (fun ns => hd 0 ns = 0) nss) ->
  read_header vmap (header_line [f0] ++ concat (map header_line sets) ++ body) =
  Ok (body, map (fun ns => (Some (hd 0 ns), map known (firstn (pos_count (tl ns)) (tl ns)))) nss).
Proof.
  intros vmap f0 sets nss body F0 B L F VM. unfold read_header.
  destruct (header_fgets [f0] [Z.of_nat (length sets)] (concat (map header_line sets) ++ body) (Forall2_cons _ _ F0 (Forall2_nil _)) L) as [E1 E2].
  rewrite E1, E2. unfold header_line at 1. destruct (head_scan f0 [] _ F0 B) as (r & ->). cbn [bind].
  rewrite Nat2Z.id. destruct (headers1_ok vmap sets nss F VM body (header_line [f0]) None) as (np & ->). cbn [bind].
  apply headers2_ok; auto.
Qed.
Lemma known_pos : forall ns, Forall (fun n => 0 < n) ns -> map known (firstn (pos_count ns) ns) = map Some ns.
Proof.
  intros ns H. assert (E : pos_count ns = length ns).
  { induction H; [reflexivity|]. unfold pos_count in *. cbn [filter]. destruct (Z.ltb_spec 0 x); [|lia]. simpl. rewrite IHForall. reflexivity. }
  rewrite E, firstn_all. apply map_ext_in. intros a I. rewrite Forall_forall in H. specialize (H a I). unfold known.
  destruct (Z.ltb_spec 0 a); [reflexivity|lia].
Qed.

(** ** Rows *)
Section Rows.
  Context {V : Type}.
  Variable num : list ascii -> V -> Prop.
  Variable lf : list ascii -> option (V * list ascii).
  Hypothesis PN : plain_numerals num.
  Hypothesis RN : reads_numbers num lf.
  Variable ltb : V -> V -> bool.

  (** text of rows: three numbers each, separated by white space *)
  Inductive rows_text : list (V * V * V) -> list ascii -> Prop :=
  | rows_nil : rows_text [] []
  | rows_cons : forall x y z a b c s1 s2 s3 rs txt, num a x -> num b y -> num c z ->
      space s1 -> s1 <> [] -> space s2 -> s2 <> [] -> space s3 -> (s3 <> [] \/ rs = []) -> rows_text rs txt ->
      rows_text ((x, y, z) :: rs) (a ++ s1 ++ b ++ s2 ++ c ++ s3 ++ txt).

  Lemma ends_space : forall s r, space s -> s <> [] -> ends (s ++ r).
  Proof. intros [|c s] r H N; [congruence|]. inversion H; subst. simpl. auto. Qed.
  Lemma rows_head : forall rs txt, rows_text rs txt -> skip_space txt = txt.
  Proof.
    intros rs txt H. destruct H; [reflexivity|]. destruct (PN _ _ H) as [NE NC].
    apply skip_word; auto. eapply Forall_impl; [|exact NC]. intros ch (A & _). exact A.
  Qed.
  Lemma rows_nonempty : forall r rs txt, rows_text (r :: rs) txt -> txt <> [].
  Proof.
    intros r rs txt H. inversion H as [|x y z a b c s1 s2 s3 rs0 txt0 Na]; subst. destruct (PN _ _ Na) as [NE _].
    destruct a; [congruence|discriminate].
  Qed.
  Lemma read_rows_ok : forall rs rs' txt eof, rows_text (rs ++ rs') txt -> (rs <> [] -> eof = false) ->
    exists txt', rows_text rs' txt' /\
      read_rows lf (length rs) txt eof = Ok (txt', match rs with [] => eof | _ => match txt' with [] => true | _ => false end end, rs).
  Proof.
    induction rs as [|r rs IH]; intros rs' txt eof H E.
    - exists txt. split; auto.
    - cbn [app] in H. inversion H as [|x y z a b c s1 s2 s3 rs0 txt0 Na Nb Nc S1 N1 S2 N2 S3 N3 RT]; subst.
      rewrite E by discriminate. cbn [length read_rows].
      pose proof (RN [] a (s1 ++ b ++ s2 ++ c ++ s3 ++ txt0) x Na (Forall_nil _) (ends_space _ _ S1 N1)) as R1. cbn [app] in R1. rewrite R1.
      rewrite (RN s1 b (s2 ++ c ++ s3 ++ txt0) y Nb S1 (ends_space _ _ S2 N2)).
      assert (E3 : ends (s3 ++ txt0)).
      { destruct N3 as [N3|N3]; [apply ends_space; auto|]. destruct s3; [|apply ends_space; [auto|discriminate]].
        destruct rs as [|? ?]; [|discriminate N3]. cbn [app] in RT, N3. subst rs'. inversion RT; subst. exact I. }
      rewrite (RN s2 c (s3 ++ txt0) z Nc S2 E3).
      rewrite skip_space_app by auto. rewrite (rows_head _ _ RT).
      destruct (IH rs' txt0 (match txt0 with [] => true | _ => false end) RT) as (txt' & RT' & EQ).
      { intros NE. destruct rs; [congruence|]. pose proof (rows_nonempty _ _ _ RT). destruct txt0; [congruence|reflexivity]. }
      rewrite EQ. cbn [bind]. exists txt'. split; auto. destruct rs; [|reflexivity].
      cbn in EQ. injection EQ as <-. reflexivity.
  Qed.

  Definition ascending (c : list (V * V * V)) : bool := negb (unsorted ltb (map (fun r => fst (fst r)) c)).
  Lemma read_curve_ok : forall rs rs' txt eof, rows_text (rs ++ rs') txt -> (txt <> [] -> eof = false) ->
    exists txt' eof', rows_text rs' txt' /\ (txt' <> [] -> eof' = false) /\
      read_curve lf ltb (Some (Z.of_nat (length rs))) txt eof = if ascending rs then Ok (txt', eof', rs) else Exit.
  Proof.
    intros rs rs' txt eof H E. unfold read_curve. rewrite Nat2Z.id.
    destruct (read_rows_ok rs rs' txt eof H) as (txt' & RT & EQ).
    { intros NE. apply E. destruct rs; [congruence|]. eapply rows_nonempty; eauto. }
    rewrite EQ. cbn [bind]. exists txt'. rewrite (rows_head _ _ RT).
    eexists. split; [exact RT|]. split; cycle 1.
    - unfold ascending. destruct (unsorted ltb (map (fun r => fst (fst r)) rs)); reflexivity.
    - intros NE. destruct txt'; [congruence|]. rewrite orb_false_r. destruct rs; [|reflexivity]. apply E.
      cbn in EQ. injection EQ as ->. discriminate.
  Qed.
  Lemma read_curves_ok : forall cs rs' txt eof, rows_text (concat cs ++ rs') txt -> (txt <> [] -> eof = false) ->
    exists txt' eof', rows_text rs' txt' /\ (txt' <> [] -> eof' = false) /\
      read_curves lf ltb (map (fun c => Some (Z.of_nat (length c))) cs) txt eof = if forallb ascending cs then Ok (txt', eof', cs) else Exit.
  Proof.
    induction cs as [|c cs IH]; intros rs' txt eof H E.
    - exists txt, eof. split; [exact H|]. split; [exact E|]. reflexivity.
    - cbn [concat] in H. rewrite <- app_assoc in H.
      destruct (read_curve_ok c (concat cs ++ rs') txt eof H E) as (t1 & e1 & R1 & E1 & EQ).
      destruct (IH rs' t1 e1 R1 E1) as (t2 & e2 & R2 & E2 & EQ2). exists t2, e2. split; auto. split; auto.
      cbn [map read_curves forallb]. rewrite EQ. destruct (ascending c); cbn [bind andb]; [|reflexivity].
      rewrite EQ2. destruct (forallb ascending cs); reflexivity.
  Qed.
  Lemma read_sets_ok : forall (data : list (list (list (V * V * V)))) txt eof, rows_text (concat (concat data)) txt -> (txt <> [] -> eof = false) ->
    Forall (fun cs => cs <> []) data ->
    read_sets lf ltb (map (fun cs => (Some (Z.of_nat (length (hd [] cs))), map (fun c => Some (Z.of_nat (length c))) (tl cs))) data) txt eof =
    if forallb (forallb ascending) data then Ok data else Exit.
  Proof.
    induction data as [|cs data IH]; intros txt eof H E NE; [reflexivity|]. inversion NE as [|? ? N0 N1]; subst.
    cbn [concat] in H. rewrite concat_app in H.
    destruct (read_curves_ok cs (concat (concat data)) txt eof H E) as (t1 & e1 & R1 & E1 & EQ).
    cbn [map read_sets forallb]. destruct cs as [|c cs]; [congruence|]. cbn [hd tl]. cbn [map] in EQ. rewrite EQ.
    destruct (forallb ascending (c :: cs)); cbn [bind andb]; [|reflexivity].
    rewrite (IH t1 e1 R1 E1 N1). destruct (forallb (forallb ascending) data); reflexivity.
  Qed.
End Rows.
