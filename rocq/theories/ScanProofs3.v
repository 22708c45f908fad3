(** Prior file. *)
From Coq Require Import ZArith List Bool Lia Ascii.
From Verif Require Import CPrelude ListLemmas TagModel TagSpec TagProofs ScanModel ScanProofs ScanProofs2.
Import ListNotations.
Open Scope Z_scope.

Definition nonspace (w : list ascii) : Prop := w <> [] /\ Forall (fun c => isspace c = false) w.
Lemma rtrim_space : forall s, space s -> rtrim s = [].
Proof. intros s H. induction H; simpl; auto. rewrite IHForall, H. reflexivity. Qed.
Lemma rtrim_app : forall a s, space s -> rtrim (a ++ s) = rtrim a.
Proof. induction a; intros s H; simpl; [apply rtrim_space; auto|]. rewrite IHa by auto. reflexivity. Qed.
Lemma rtrim_tail : forall a y, y <> [] -> rtrim y = y -> rtrim (a ++ y) = a ++ y.
Proof.
  induction a; intros y H E; simpl; auto. rewrite IHa by auto. destruct (a0 ++ y) eqn:X; [|reflexivity].
  apply app_eq_nil in X as [_ X]. congruence.
Qed.
Lemma rtrim_word : forall w, Forall (fun c => isspace c = false) w -> rtrim w = w.
Proof. intros w H. induction H; simpl; auto. rewrite IHForall, H. destruct l; reflexivity. Qed.
Lemma take_word_app : forall w r, Forall (fun c => isspace c = false) w -> (match r with [] => True | c :: _ => isspace c = true end) ->
  take_word (w ++ r) = (w, r).
Proof.
  intros w r H R. induction H; simpl.
  - destruct r; [reflexivity|]. simpl. rewrite R. reflexivity.
  - rewrite H, IHForall. reflexivity.
Qed.
Lemma numchar_nonspace : forall w, Forall numchar w -> Forall (fun c => isspace c = false) w.
Proof. intros w H. eapply Forall_impl; [|exact H]. intros c (A & _). exact A. Qed.
Lemma digits_nonspace : forall w, Forall isdigit w -> Forall (fun c => isspace c = false) w.
Proof. intros w H. eapply Forall_impl; [|exact H]. intros; apply digit_nospace; auto. Qed.
Lemma no_digit_space : forall s r, space s -> s <> [] -> no_digit (s ++ r).
Proof. intros [|c s] r H N; [congruence|]. inversion H; subst. intros D. apply digit_nospace in D. congruence. Qed.
Lemma head_space : forall s r, space s -> s <> [] -> match s ++ r with [] => True | c :: _ => isspace c = true end.
Proof. intros [|c s] r H N; [congruence|]. inversion H; subst. assumption. Qed.

Section PriorFile.
  Context {V : Type}.
  Variable num : list ascii -> V -> Prop.
  Variable lf : list ascii -> option (V * list ascii).
  Hypothesis PN : plain_numerals num.
  Hypothesis RN : reads_numbers num lf.

  Record prec := mkprec { r_idx : Z; r_min : V; r_max : V; r_fix : Z; r_val : V }.
  Definition rtuple (r : prec) := (r_idx r, r_min r, r_max r, r_fix r, r_val r).

  (** the seven fields, separated by white space *)
  Definition record_line (r : prec) (l : list ascii) : Prop :=
    exists s0 wi s1 name s2 type s3 wa s4 wb s5 wf s6 wv s7,
      l = s0 ++ wi ++ s1 ++ name ++ s2 ++ type ++ s3 ++ wa ++ s4 ++ wb ++ s5 ++ wf ++ s6 ++ wv ++ s7 /\
      space s0 /\ decimal wi (r_idx r) /\ r_idx r < 2 ^ 31 /\ nonspace name /\ nonspace type /\
      num wa (r_min r) /\ num wb (r_max r) /\ decimal wf (r_fix r) /\ r_fix r < 2 ^ 31 /\ num wv (r_val r) /\
      space s7 /\ Forall (fun s => space s /\ s <> []) [s1; s2; s3; s4; s5; s6] /\
      ~ In nl l /\ ~ In NUL l /\ (length l <= 254)%nat.

  Lemma record_scan : forall r l, record_line r l -> exists core,
    trim (l ++ [nl]) = core /\ core <> [] /\ scan_record lf core = Ok (Some (rtuple r)) /\
    exists w c t, sscanf_words 1 (l ++ [nl]) = [w] /\ w = c :: t /\ c <> HASH.
  Proof.
    intros r l (s0 & wi & s1 & name & s2 & type & s3 & wa & s4 & wb & s5 & wf & s6 & wv & s7 & E & S0 & DI & BI & N1 & N2 & NA & NB & DF & BF & NV & S7 & SS & NL & NN & LL).
    repeat match goal with H : Forall _ (_ :: _) |- _ => inversion H; clear H; subst end.
    repeat match goal with H : space _ /\ _ |- _ => destruct H end.
    destruct (PN _ _ NA) as [NEA CA]. destruct (PN _ _ NB) as [NEB CB]. destruct (PN _ _ NV) as [NEV CV].
    apply numchar_nonspace in CA, CB, CV.
    pose proof DI as (NEI & FI & _). pose proof DF as (NEF & FF & _).
    set (core := wi ++ s1 ++ name ++ s2 ++ type ++ s3 ++ wa ++ s4 ++ wb ++ s5 ++ wf ++ s6 ++ wv).
    exists core. split; [|split; [|split]].
    - unfold trim. rewrite <- !app_assoc. rewrite skip_space_app by auto.
      rewrite skip_word by (auto using digits_nonspace).
      replace (wi ++ s1 ++ name ++ s2 ++ type ++ s3 ++ wa ++ s4 ++ wb ++ s5 ++ wf ++ s6 ++ wv ++ s7 ++ [nl]) with (core ++ s7 ++ [nl])
        by (unfold core; rewrite <- !app_assoc; reflexivity).
      rewrite rtrim_app. 2: { apply Forall_app. split; auto. }
      unfold core. rewrite !app_assoc. apply rtrim_tail; auto. apply rtrim_word; auto.
    - unfold core. destruct wi; [congruence|discriminate].
    - unfold scan_record, core. pose proof (scan_d_ok [] wi) as SI. cbn [app] in SI.
      rewrite (SI _ (r_idx r)); [|constructor|auto|auto|apply no_digit_space; auto]. cbn [bind].
      destruct N1 as [N1 N1']. destruct N2 as [N2 N2'].
      rewrite skip_space_app by auto. rewrite skip_word by auto. rewrite take_word_app; [|auto|apply head_space; auto].
      destruct name as [|n0 name]; [congruence|]. 
      rewrite skip_space_app by auto. rewrite skip_word by auto. rewrite take_word_app; [|auto|apply head_space; auto].
      destruct type as [|t0 type]; [congruence|].
      rewrite (RN s3 wa _ (r_min r)); [|auto|auto|apply ends_space; auto].
      rewrite (RN s4 wb _ (r_max r)); [|auto|auto|apply ends_space; auto].
      rewrite (scan_d_ok s5 wf _ (r_fix r)); [|auto|auto|auto|apply no_digit_space; auto]. cbn [bind].
      pose proof (RN s6 wv [] (r_val r) NV) as R6. rewrite app_nil_r in R6. rewrite R6; [|auto|exact I]. reflexivity.
    - destruct wi as [|c wi]; [congruence|]. exists (c :: wi), c, wi. split; [|split; [reflexivity|]].
      + rewrite <- !app_assoc. cbn [sscanf_words]. rewrite skip_space_app by auto. rewrite skip_word by (auto using digits_nonspace).
        rewrite take_word_app; [reflexivity|auto using digits_nonspace|apply head_space; auto].
      + inversion FI as [|? ? X]; subst. intros ->. destruct X. unfold code in *. simpl in *. lia.
  Qed.
  Lemma line_fgets : forall l r, ~ In nl l -> ~ In NUL l -> (length l <= 254)%nat ->
    fgets 255 (l ++ nl :: r) = (l ++ [nl], r, false) /\ cstr (l ++ [nl]) = l ++ [nl].
  Proof.
    intros l r NL NN LL. split.
    - apply fgets_line; [|lia]. apply Forall_forall. intros c I. unfold is_nl. destruct (ascii_dec c nl); [subst; contradiction|reflexivity].
    - apply cstr_id. intros I. apply in_app_iff in I as [I|[I|[]]]; [contradiction|discriminate I].
  Qed.

  (** setting parameters *)
  Definition wf_state (n : Z) (st : @pstate V) : Prop :=
    Z.of_nat (length (p_range st)) = n /\ Z.of_nat (length (p_fix st)) = n /\ Z.of_nat (length (p_val st)) = n.
  Definition par (st : @pstate V) (k : nat) : option ((V * V) * Z * V) :=
    match nth_error (p_range st) k, nth_error (p_fix st) k, nth_error (p_val st) k with
    | Some a, Some b, Some c => Some (a, b, c) | _, _, _ => None
    end.
  Definition rec_par (r : prec) : (V * V) * Z * V := ((r_min r, r_max r), r_fix r, r_val r).
  Lemma set_par_ok : forall n r st, wf_state n st -> 0 <= r_idx r < n -> exists st', set_par n (rtuple r) st = Ok st' /\ wf_state n st' /\
    forall k, par st' k = if Z.eqb (Z.of_nat k) (r_idx r) then Some (rec_par r) else par st k.
  Proof.
    intros n r st (L1 & L2 & L3) B. unfold set_par, rtuple.
    destruct (Z.leb_spec n (r_idx r)); [lia|]. destruct (Z.ltb_spec (r_idx r) 0); [lia|].
    destruct (ListLemmas.set_nth_some _ (p_range st) (Z.to_nat (r_idx r)) (r_min r, r_max r)) as [a EA]; [lia|].
    destruct (ListLemmas.set_nth_some _ (p_fix st) (Z.to_nat (r_idx r)) (r_fix r)) as [b EB]; [lia|].
    destruct (ListLemmas.set_nth_some _ (p_val st) (Z.to_nat (r_idx r)) (r_val r)) as [c EC]; [lia|].
    unfold put. rewrite EA, EB, EC. cbn [bind]. eexists. split; [reflexivity|]. split.
    - unfold wf_state. cbn. rewrite (set_nth_length _ _ _ _ _ EA), (set_nth_length _ _ _ _ _ EB), (set_nth_length _ _ _ _ _ EC). auto.
    - intros k. unfold par. cbn. destruct (Z.eqb_spec (Z.of_nat k) (r_idx r)) as [X|X].
      + replace (Z.to_nat (r_idx r)) with k in * by lia.
        rewrite (set_nth_eq _ _ _ _ _ EA), (set_nth_eq _ _ _ _ _ EB), (set_nth_eq _ _ _ _ _ EC). reflexivity.
      + rewrite (set_nth_neq _ _ _ _ _ k EA), (set_nth_neq _ _ _ _ _ k EB), (set_nth_neq _ _ _ _ _ k EC) by lia. reflexivity.
  Qed.

  (** The loop with a record line in [str] does the record, then reads on. *)
  Lemma load_step : forall fuel n f l r buf st st', record_line r l -> set_par n (rtuple r) st = st' ->
    exists str' buf', load_loop lf (S fuel) n f (l ++ [nl]) buf false st =
      bind st' (fun st => let '(s, g, e) := fgets 255 f in load_loop lf fuel n g (match s with [] => str' | _ => s end) buf' e st).
  Proof.
    intros fuel n f l r buf st st' RL E. pose proof (record_scan r l RL) as (core & T & NE & SC & w & c & t & W & -> & NH).
    destruct RL as (s0 & wi & s1 & name & s2 & type & s3 & wa & s4 & wb & s5 & wf & s6 & wv & s7 & _ & _ & _ & _ & _ & _ & _ & _ & _ & _ & _ & _ & _ & NL & NN & LL).
    destruct (line_fgets l [] NL NN LL) as [_ EC].
    cbn [load_loop]. rewrite EC, W. destruct (ascii_dec c HASH); [congruence|].
    rewrite T. destruct core as [|c0 core]; [congruence|]. rewrite SC. cbn [bind]. rewrite E.
    eexists _, _. reflexivity.
  Qed.

  (** the last record for parameter k *)
  Definition last_for (k : nat) (rs : list prec) : option prec := find (fun r => Z.eqb (r_idx r) (Z.of_nat k)) (rev rs).
  Definition text (ls : list (list ascii)) : list ascii := concat (map (fun l => l ++ [nl]) ls).

  Lemma find_app : forall A (p : A -> bool) a b, find p (a ++ b) = match find p a with Some x => Some x | None => find p b end.
  Proof. induction a; intros b; simpl; auto. destruct (p a); auto. Qed.
  Lemma last_cons : forall k r rs, last_for k (r :: rs) =
    match last_for k rs with Some x => Some x | None => if Z.eqb (r_idx r) (Z.of_nat k) then Some r else None end.
  Proof. intros k r rs. unfold last_for. cbn [rev]. rewrite find_app. reflexivity. Qed.

  (** Reading record lines, whatever follows: the rest is read with the state
      set as the records say. *)
  Lemma load_records : forall rs ls, Forall2 record_line rs ls -> forall n rest fuel st str0 buf0,
    Forall (fun r => r_idx r < n) rs -> wf_state n st ->
    exists st' str' buf', wf_state n st' /\
      (forall k, par st' k = match last_for k rs with Some r => Some (rec_par r) | None => par st k end) /\
      load_par_names lf (length rs + fuel) n (text ls ++ rest) str0 buf0 st = load_par_names lf fuel n rest str' buf' st'.
  Proof.
    intros rs ls F. induction F as [|r l rs ls RL F IH]; intros n rest fuel st str0 buf0 B W.
    - exists st, str0, buf0. split; [auto|]. split; [reflexivity|reflexivity].
    - inversion B as [|? ? Br B']; subst.
      assert (I0 : 0 <= r_idx r). { destruct RL as (? & ? & ? & ? & ? & ? & ? & ? & ? & ? & ? & ? & ? & ? & ? & _ & _ & D & _). eapply decimal_nonneg; eauto. }
      destruct (set_par_ok n r st W) as (st1 & ES & W1 & P1); [lia|].
      pose proof RL as (s0 & wi & s1 & name & s2 & type & s3 & wa & s4 & wb & s5 & wf & s6 & wv & s7 & _ & _ & _ & _ & _ & _ & _ & _ & _ & _ & _ & _ & _ & NL & NN & LL).
      destruct (load_step (length rs + fuel) n (text ls ++ rest) l r buf0 st _ RL ES) as (str1 & buf1 & EL).
      destruct (IH n rest fuel st1 str1 buf1 B' W1) as (st' & str' & buf' & W' & P' & E').
      exists st', str', buf'. split; [auto|]. split.
      + intros k. rewrite P', last_cons, P1. rewrite (Z.eqb_sym (r_idx r)). destruct (last_for k rs); [reflexivity|].
        destruct (Z.of_nat k =? r_idx r); reflexivity.
      + rewrite <- E'. unfold load_par_names at 1. unfold text. cbn [map concat length]. rewrite <- !app_assoc.
        destruct (line_fgets l (text ls ++ rest) NL NN LL) as [FG _]. cbn [app]. fold (text ls). rewrite FG.
        destruct (l ++ [nl]) eqn:X; [destruct l; discriminate|]. rewrite <- X in *. cbn [Nat.add]. rewrite EL. cbn [bind].
        unfold load_par_names. destruct (fgets 255 (text ls ++ rest)) as [[s g] e]. reflexivity.
  Qed.

  (** A comment line or a blank line: no fuel is enough. *)
  Definition comment_line (l : list ascii) : Prop :=
    (exists s t, l = s ++ HASH :: t /\ space s) /\ ~ In nl l /\ ~ In NUL l /\ (length l <= 254)%nat.
  Definition blank_line (l : list ascii) : Prop := space l /\ ~ In nl l /\ (length l <= 254)%nat.
  Lemma comment_stuck : forall fuel n f l buf st, comment_line l -> load_loop lf fuel n f (l ++ [nl]) buf false st = Stuck.
  Proof.
    intros fuel n f l buf st ((s & t & E & SP) & NL & NN & LL). revert buf.
    destruct (line_fgets l [] NL NN LL) as [_ EC].
    induction fuel; intros buf; [reflexivity|]. cbn [load_loop]. rewrite EC.
    assert (X : exists t', sscanf_words 1 (l ++ [nl]) = [HASH :: t']).
    { rewrite E, <- app_assoc. cbn [sscanf_words app]. rewrite skip_space_app by auto.
      change (skip_space (HASH :: t ++ [nl])) with (HASH :: t ++ [nl]). cbn [take_word].
      change (isspace HASH) with false. cbv iota. destruct (take_word (t ++ [nl])) as [w q]. eauto. }
    destruct X as [t' X]. rewrite X. destruct (ascii_dec HASH HASH); [|congruence]. apply IHfuel.
  Qed.
  Lemma space_stuck : forall fuel n f s buf st, space s -> ~ In NUL s -> load_loop lf fuel n f s buf false st = Stuck.
  Proof.
    intros fuel n f s buf st SP NN. revert s SP NN buf. induction fuel; intros s SP NN buf; [reflexivity|]. cbn [load_loop].
    rewrite (cstr_id _ NN).
    assert (X : skip_space s = []). { clear - SP. induction SP; simpl; auto. rewrite H. auto. }
    assert (Y : trim s = []) by (unfold trim; rewrite X; reflexivity).
    rewrite Y. destruct (match match sscanf_words 1 s with [] => buf | w :: _ => w end with [] => false | c :: _ => if ascii_dec c HASH then true else false end).
    - apply IHfuel; auto.
    - apply IHfuel; [constructor|intros []].
  Qed.
  Lemma blank_stuck : forall fuel n f l buf st, blank_line l -> load_loop lf fuel n f (l ++ [nl]) buf false st = Stuck.
  Proof.
    intros fuel n f l buf st (SP & NL & LL). apply space_stuck.
    - apply Forall_app. split; auto.
    - intros I. apply in_app_iff in I as [I|[I|[]]]; [|discriminate I]. unfold space in SP. rewrite Forall_forall in SP.
      apply SP in I. discriminate I.
  Qed.
  Lemma load_stuck : forall fuel n l rest str0 buf0 st, comment_line l \/ blank_line l ->
    load_par_names lf fuel n (l ++ nl :: rest) str0 buf0 st = Stuck.
  Proof.
    intros fuel n l rest str0 buf0 st H. unfold load_par_names.
    assert (X : fgets 255 (l ++ nl :: rest) = (l ++ [nl], rest, false)).
    { assert (NL : ~ In nl l) by (destruct H as [(_ & H & _)|(_ & H & _)]; auto).
      assert (LL : (length l <= 254)%nat) by (destruct H as [(_ & _ & _ & H)|(_ & _ & H)]; auto).
      apply fgets_line; [|lia]. apply Forall_forall. intros c I. unfold is_nl. destruct (ascii_dec c nl); [subst; contradiction|reflexivity]. }
    rewrite X. destruct (l ++ [nl]) eqn:E; [destruct l; discriminate|]. rewrite <- E.
    destruct H; [apply comment_stuck|apply blank_stuck]; auto.
  Qed.
  Lemma load_end : forall fuel n str0 buf0 st, load_par_names lf fuel n [] str0 buf0 st = Ok st.
  Proof. intros [|fuel] n str0 buf0 st; reflexivity. Qed.
  Lemma load_last : forall fuel n l str0 buf0 st, ~ In nl l -> (length l <= 254)%nat -> load_par_names lf fuel n l str0 buf0 st = Ok st.
  Proof.
    intros fuel n l str0 buf0 st NL LL. unfold load_par_names. rewrite fgets_last.
    - destruct fuel; reflexivity.
    - apply Forall_forall. intros c I. unfold is_nl. destruct (ascii_dec c nl); [subst; contradiction|reflexivity].
    - lia.
  Qed.
  Lemma load_bad : forall fuel n r l rest str0 buf0 st, record_line r l -> n <= r_idx r ->
    load_par_names lf (S fuel) n (l ++ nl :: rest) str0 buf0 st = Exit.
  Proof.
    intros fuel n r l rest str0 buf0 st RL B. unfold load_par_names.
    pose proof RL as (s0 & wi & s1 & name & s2 & type & s3 & wa & s4 & wb & s5 & wf & s6 & wv & s7 & _ & _ & _ & _ & _ & _ & _ & _ & _ & _ & _ & _ & _ & NL & NN & LL).
    destruct (line_fgets l rest NL NN LL) as [FG _]. rewrite FG.
    destruct (l ++ [nl]) eqn:E; [destruct l; discriminate|]. rewrite <- E.
    destruct (load_step fuel n rest l r buf0 st Exit RL) as (str1 & buf1 & EL).
    - unfold set_par, rtuple. destruct (Z.leb_spec n (r_idx r)); [reflexivity|lia].
    - rewrite EL. reflexivity.
  Qed.
End PriorFile.
