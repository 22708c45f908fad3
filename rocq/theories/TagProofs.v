(** The reading loop does what TagSpec.v says. *)
From Coq Require Import ZArith QArith List Bool Lia Ascii String Permutation.
From Verif Require Import CPrelude TagModel TagSpec.
Import ListNotations.
Open Scope nat_scope.

Definition is_nl (c : ascii) : bool := if ascii_dec c nl then true else false.

(** ** Splitting *)
Lemma split_at_nonempty : forall sep f, split_at sep f <> [].
Proof. intros sep [|c r]; simpl; [discriminate|]. destruct (sep c); [discriminate|]. destruct (split_at sep r); discriminate. Qed.

Lemma split_at_app : forall sep l c r, Forall (fun x => sep x = false) l -> sep c = true ->
  split_at sep (l ++ c :: r) = l :: split_at sep r.
Proof.
  intros sep l c r H Hc. induction H as [|x l Hx Hl IH]; simpl; [rewrite Hc; reflexivity|].
  rewrite Hx, IH. reflexivity.
Qed.
Lemma split_at_none : forall sep l, Forall (fun x => sep x = false) l -> split_at sep l = [l].
Proof. intros sep l H. induction H as [|x l Hx Hl IH]; simpl; [reflexivity|]. rewrite Hx, IH. reflexivity. Qed.
Lemma first_sep : forall sep (f : list ascii), Forall (fun x => sep x = false) f \/
  exists l c r, f = l ++ c :: r /\ Forall (fun x => sep x = false) l /\ sep c = true.
Proof.
  intros sep f. induction f as [|c r [IH|(l & d & r' & E & H & Hd)]]; [left; constructor| |].
  - destruct (sep c) eqn:Hc; [right; exists [], c, r; repeat split; auto|left; constructor; auto].
  - destruct (sep c) eqn:Hc; [right; exists [], c, r; repeat split; auto|].
    right. exists (c :: l), d, r'. subst. repeat split; auto.
Qed.

(** ** Words *)
Lemma take_word_spec : forall s w r, take_word s = (w, r) ->
  s = w ++ r /\ Forall (fun c => isspace c = false) w /\ (r = [] \/ exists c r', r = c :: r' /\ isspace c = true).
Proof.
  induction s as [|c s IH]; simpl; intros w r H.
  - injection H as <- <-. repeat split; auto.
  - destruct (isspace c) eqn:Hc.
    + injection H as <- <-. repeat split; auto. right. eauto.
    + destruct (take_word s) as [w' r'] eqn:E. injection H as <- <-.
      destruct (IH w' r' eq_refl) as (-> & H1 & H2). repeat split; auto.
Qed.
Lemma words_space : forall c s, isspace c = true -> words (c :: s) = words s.
Proof. intros c s H. unfold words. simpl. rewrite H. reflexivity. Qed.
Lemma words_skip : forall s, words (skip_space s) = words s.
Proof.
  induction s as [|c s IH]; simpl; [reflexivity|]. destruct (isspace c) eqn:H; [|reflexivity].
  rewrite IH. symmetry. apply words_space, H.
Qed.
Lemma skip_head : forall s c r, skip_space s = c :: r -> isspace c = false.
Proof.
  induction s as [|d s IH]; simpl; intros c r H; [discriminate|].
  destruct (isspace d) eqn:E; [eapply IH; eauto|]. injection H as <- <-. exact E.
Qed.
Lemma words_cons : forall w s, w <> [] -> Forall (fun c => isspace c = false) w ->
  (s = [] \/ exists c r, s = c :: r /\ isspace c = true) -> words (w ++ s) = w :: words s.
Proof.
  intros w s Hw H [->|(c & r & -> & Hc)].
  - rewrite app_nil_r. unfold words. rewrite split_at_none by exact H. destruct w; [congruence|reflexivity].
  - rewrite (words_space c r Hc). unfold words. rewrite split_at_app by auto. destruct w; [congruence|reflexivity].
Qed.
Lemma sscanf_words_spec : forall n s, sscanf_words n s = firstn n (words s).
Proof.
  induction n as [|n IH]; intros s; [reflexivity|]. cbn [sscanf_words].
  rewrite <- (words_skip s). destruct (take_word (skip_space s)) as [w r] eqn:E.
  pose proof (take_word_spec _ _ _ E) as (E1 & H1 & H2).
  destruct w as [|c w].
  - assert (skip_space s = []) as ->; [|reflexivity].
    destruct H2 as [->|(c & r' & -> & Hc)]; [exact E1|]. simpl in E1.
    pose proof (skip_head _ _ _ E1). congruence.
  - rewrite E1, words_cons; [|discriminate|exact H1|exact H2]. simpl. f_equal. apply IH.
Qed.

Lemma words_app_space : forall s c, isspace c = true -> words (s ++ [c]) = words s.
Proof.
  intros s c Hc. unfold words.
  enough (H : split_at isspace (s ++ [c]) = split_at isspace s ++ [[]]) by (rewrite H, filter_app; apply app_nil_r).
  induction s as [|d s IH]; simpl; [rewrite Hc; reflexivity|].
  destruct (isspace d); [rewrite IH; reflexivity|]. rewrite IH.
  pose proof (split_at_nonempty isspace s). destruct (split_at isspace s); [congruence|reflexivity].
Qed.
Lemma cstr_id : forall s, ~ In NUL s -> cstr s = s.
Proof.
  induction s as [|c s IH]; simpl; intros H; [reflexivity|].
  destruct (ascii_dec c NUL); [subst; exfalso; apply H; auto|]. f_equal. apply IH. intuition.
Qed.
Lemma words_nonempty : forall l w, In w (words l) -> w <> [].
Proof. intros l w H. apply filter_In in H as [_ H]. destruct w; [discriminate|]. congruence. Qed.

(** A word is a piece of the line. *)
Lemma split_at_length : forall sep f l, In l (split_at sep f) -> List.length l <= List.length f.
Proof.
  intros sep f. induction f as [|c r IH]; simpl; intros l H.
  - destruct H as [<-|[]]. simpl. lia.
  - destruct (sep c).
    + destruct H as [<-|H]; [simpl; lia|]. apply IH in H. lia.
    + destruct (split_at sep r) as [|w ws] eqn:E; [destruct H as [<-|[]]; simpl; lia|].
      destruct H as [<-|H]; simpl; [specialize (IH w (or_introl eq_refl)); lia|].
      specialize (IH l (or_intror H)). lia.
Qed.
Lemma words_length : forall l w, In w (words l) -> List.length w <= List.length l.
Proof. intros l w H. apply filter_In in H as [H _]. eapply split_at_length; eauto. Qed.

Section Reader.
Variable atof : word -> num.
Variable comment : ascii -> bool.
Variable dict : list entry.

(** ** One line *)
Definition assign (st : rstate) (s : word * word) : outcome rstate :=
  match find_tag dict (isset st) (fst s) with
  | Some (i, e) =>
    s' <- put (isset st) i true ;;
    v <- decode atof (e_ty e) (snd s) ;;
    m <- put (fields st) (e_addr e) v ;;
    Ok (mkrs s' m)
  | None => Exit
  end.
Lemma do_line_spec : forall st l, ~ In NUL l ->
  do_line atof comment dict st l =
  match kind_of comment l with Setting t v => assign st (t, v) | _ => Ok st end.
Proof.
  intros st l H. unfold do_line, kind_of. rewrite cstr_id, sscanf_words_spec by exact H.
  destruct (words l) as [|w1 [|w2 ws]] eqn:E.
  - reflexivity.
  - simpl. destruct w1; reflexivity.
  - simpl. assert (Hw : w1 <> []) by (apply (words_nonempty l); rewrite E; left; reflexivity).
    destruct w1 as [|c w1]; [congruence|].
    destruct (comment c); reflexivity.
Qed.
Lemma kind_of_nl : forall l, kind_of comment (l ++ [nl]) = kind_of comment l.
Proof. intros l. unfold kind_of. rewrite words_app_space; reflexivity. Qed.
Lemma kind_of_short : forall l t v, kind_of comment l = Setting t v ->
  List.length t <= List.length l /\ List.length v <= List.length l.
Proof.
  intros l t v. unfold kind_of. destruct (words l) as [|[|c w1] [|w2 ws]] eqn:E; try discriminate.
  destruct (comment c); [discriminate|]. intros [= <- <-].
  split; apply words_length; rewrite E; simpl; auto.
Qed.

(** ** The loop *)
Definition do_kind (st : rstate) (l : list ascii) : outcome rstate :=
  match kind_of comment l with Setting t v => assign st (t, v) | _ => Ok st end.

Lemma fgets_line : forall n l r, Forall (fun c => is_nl c = false) l -> List.length l < n ->
  fgets n (l ++ nl :: r) = (l ++ [nl], r, false).
Proof.
  intros n l. revert n. induction l as [|c l IH]; intros n r H Hn; destruct n as [|n]; simpl in Hn; try lia.
  - reflexivity.
  - apply Forall_cons_iff in H as [H1 H2]. simpl. unfold is_nl in H1. destruct (ascii_dec c nl); [discriminate|].
    rewrite IH by (auto; lia). reflexivity.
Qed.
Lemma fgets_last : forall n l, Forall (fun c => is_nl c = false) l -> List.length l < n ->
  fgets n l = (l, [], true).
Proof.
  intros n l. revert n. induction l as [|c l IH]; intros n H Hn; destruct n as [|n]; simpl in Hn; try lia.
  - reflexivity.
  - apply Forall_cons_iff in H as [H1 H2]. simpl. unfold is_nl in H1. destruct (ascii_dec c nl); [discriminate|].
    rewrite IH by (auto; lia). reflexivity.
Qed.

Lemma plain_cons : forall l r, Forall (fun c => is_nl c = false) l -> plain (l ++ nl :: r) ->
  List.length l <= 198 /\ ~ In NUL l /\ plain r.
Proof.
  intros l r Hl [H1 H2]. assert (E : lines (l ++ nl :: r) = l :: lines r) by (apply split_at_app; auto).
  rewrite E in H2. split; [apply H2; left; reflexivity|]. split; [intros H; apply H1, in_or_app; auto|].
  split; [intros H; apply H1, in_or_app; right; right; exact H|]. intros l' H'. apply H2. right. exact H'.
Qed.

Opaque fgets.
Lemma read_loop_spec : forall n f st, List.length f < n -> plain f ->
  read_loop atof comment dict n f st = foldM do_kind (lines f) st.
Proof.
  induction n as [|n IH]; intros f st Hn Hp; [lia|]. cbn [read_loop].
  destruct (first_sep is_nl f) as [Hl|(l & c & r & -> & Hl & Hc)].
  - destruct Hp as [H0 H1]. unfold lines in *. fold is_nl in *. rewrite split_at_none in * by exact Hl.
    specialize (H1 f (or_introl eq_refl)).
    rewrite (fgets_last 199 f Hl) by lia. cbn [foldM].
    destruct f as [|c f].
    + reflexivity.
    + rewrite do_line_spec by exact H0. fold (do_kind st (c :: f)). destruct (do_kind st (c :: f)); reflexivity.
  - assert (c = nl) as -> by (unfold is_nl in Hc; destruct (ascii_dec c nl); [assumption|discriminate]).
    destruct (plain_cons l r Hl Hp) as (Hlen & HN & Hr).
    rewrite fgets_line by (auto; lia).
    assert (E : lines (l ++ nl :: r) = l :: lines r) by (apply split_at_app; auto). rewrite E. cbn [foldM].
    replace (match l ++ [nl] with [] => w_of "empty" | _ :: _ => l ++ [nl] end) with (l ++ [nl]) by (destruct l; reflexivity).
    rewrite do_line_spec.
    + rewrite kind_of_nl. fold (do_kind st l). destruct (do_kind st l) as [st'| | |]; cbn [bind]; try reflexivity.
      apply IH; [|exact Hr]. rewrite app_length in Hn. simpl in Hn. lia.
    + intros H. apply in_app_or in H as [H|[H|[]]]; [apply HN, H|]. discriminate H.
Qed.
Transparent fgets.

Lemma foldM_settings : forall ls st,
  foldM do_kind ls st =
  foldM assign (flat_map (fun l => match kind_of comment l with Setting t v => [(t, v)] | _ => [] end) ls) st.
Proof.
  induction ls as [|l ls IH]; intros st; [reflexivity|]. cbn [foldM flat_map]. unfold do_kind at 1.
  destruct (kind_of comment l) as [| |t v]; simpl; try apply IH.
  destruct (assign st (t, v)); simpl; auto.
Qed.
Theorem read_file_settings : forall f dflt, plain f ->
  read_file atof comment dict f dflt =
  foldM assign (settings comment f) (mkrs (map (fun _ => false) dict) dflt).
Proof. intros f dflt H. unfold read_file. rewrite read_loop_spec by (auto; lia). apply foldM_settings. Qed.

(** ** Termination for every file, plain or not *)
Lemma fgets_rest : forall n f s r e, fgets (S n) f = (s, r, e) -> e = false -> List.length r < List.length f.
Proof.
  induction n as [|n IH]; intros f s r e H ->.
  - destruct f as [|c f]; [discriminate|]. simpl in H. destruct (ascii_dec c nl); injection H as <- <-; simpl; lia.
  - destruct f as [|c f]; [discriminate|]. change (fgets (S (S n)) (c :: f)) with
      (if ascii_dec c nl then ([c], f, false) else let '(s, r', e) := fgets (S n) f in (c :: s, r', e)) in H.
    destruct (ascii_dec c nl); [injection H as <- <-; simpl; lia|].
    destruct (fgets (S n) f) as [[s' r'] e'] eqn:E. injection H as <- <- ->.
    specialize (IH f s' r' false E eq_refl). simpl. lia.
Qed.
Lemma do_line_total : forall st l, do_line atof comment dict st l <> Stuck.
Proof.
  intros st l. unfold do_line. destruct (sscanf_words 3 (cstr l)) as [|w1 [|w2 ws]]; try discriminate.
  destruct (match w1 with [] => false | c :: _ => comment c end); [discriminate|].
  destruct (find_tag dict (isset st) w1) as [[i e]|]; [|discriminate].
  unfold put. destruct (set_nth i true (isset st)); simpl; [|discriminate].
  unfold decode, to_int, to_uint. destruct (e_ty e).
  - simpl. destruct (set_nth _ _ _); simpl; discriminate.
  - destruct (_ <? _); simpl; [|discriminate]. destruct (set_nth _ _ _); simpl; discriminate.
  - destruct (atof w2) as [| |q]; simpl; try discriminate. destruct (_ && _); simpl; [|discriminate].
    destruct (set_nth _ _ _); simpl; discriminate.
  - destruct (atof w2) as [| |q]; simpl; try discriminate. destruct (_ && _); simpl; [|discriminate].
    destruct (set_nth _ _ _); simpl; discriminate.
Qed.
Theorem read_file_terminates : forall f dflt, read_file atof comment dict f dflt <> Stuck.
Proof.
  intros f dflt. unfold read_file.
  enough (H : forall n f st, List.length f < n -> read_loop atof comment dict n f st <> Stuck) by (apply H; lia).
  clear f. induction n as [|n IH]; intros f st Hn; [lia|]. cbn [read_loop].
  destruct (fgets 199 f) as [[s r] e] eqn:E.
  pose proof (do_line_total st (match s with [] => w_of "empty" | _ :: _ => s end)) as D.
  destruct (do_line _ _ _ _ _) as [st'| | |]; simpl; try congruence. destruct e; [discriminate|].
  pose proof (fgets_rest _ _ _ _ _ E eq_refl). apply IH. lia.
Qed.

(** ** The meaning of a sequence of settings *)
Definition tags : list word := map e_tag dict.
(** Value a setting gives to its field, by the table. *)
Definition entry_of (t : word) : option entry := find (fun e => weqb t (e_tag e)) dict.

Lemma weqb_eq : forall a b, weqb a b = true <-> a = b.
Proof. intros a b. unfold weqb. destruct (list_eq_dec ascii_dec a b); split; congruence. Qed.
Lemma weqb_refl : forall a, weqb a a = true.
Proof. intros a. apply weqb_eq. reflexivity. Qed.

End Reader.

(** find_tag on a table without repeated tags. *)
Lemma find_tag_some : forall d s t i e, find_tag d s t = Some (i, e) ->
  nth_error d i = Some e /\ nth_error s i = Some false /\ e_tag e = t.
Proof.
  induction d as [|e0 d IH]; intros s t i e H; [discriminate|]. destruct s as [|b s]; [discriminate|].
  simpl in H. destruct (weqb t (e_tag e0) && negb b) eqn:E.
  - injection H as <- <-. apply andb_true_iff in E as [E1 E2]. apply weqb_eq in E1. destruct b; [discriminate|]. auto.
  - destruct (find_tag d s t) as [[j e']|] eqn:F; [|discriminate]. injection H as <- <-. apply (IH s t j e' F).
Qed.
Lemma find_tag_complete : forall d s t i e, NoDup (map e_tag d) ->
  nth_error d i = Some e -> nth_error s i = Some false -> e_tag e = t -> find_tag d s t = Some (i, e).
Proof.
  induction d as [|e0 d IH]; intros s t i e Hd H1 H2 H3; [destruct i; discriminate|].
  destruct s as [|b s]; [destruct i; discriminate|]. simpl in Hd. apply NoDup_cons_iff in Hd as [Hn Hd].
  destruct i as [|i]; simpl in *.
  - injection H1 as ->. injection H2 as ->. subst t. rewrite weqb_refl. reflexivity.
  - destruct (weqb t (e_tag e0)) eqn:E.
    + exfalso. apply weqb_eq in E. apply Hn. rewrite <- E, <- H3. apply nth_error_In in H1. apply in_map, H1.
    + simpl. rewrite (IH s t i e Hd H1 H2 H3). reflexivity.
Qed.

Lemma set_nth_some : forall {A} (l : list A) n a, n < List.length l -> exists l', set_nth n a l = Some l'.
Proof.
  induction l as [|x l IH]; simpl; intros n a H; [lia|]. destruct n; [eauto|].
  destruct (IH n a) as [l' ->]; [lia|]. eauto.
Qed.
Lemma set_nth_spec : forall {A} (l : list A) n a l', set_nth n a l = Some l' ->
  List.length l' = List.length l /\ forall m, nth_error l' m = if Nat.eqb m n then (if n <? List.length l then Some a else None) else nth_error l m.
Proof.
  induction l as [|x l IH]; simpl; intros n a l' H; [discriminate|]. destruct n.
  - injection H as <-. split; [reflexivity|]. intros [|m]; reflexivity.
  - destruct (set_nth n a l) as [l0|] eqn:E; [|discriminate]. injection H as <-.
    destruct (IH _ _ _ E) as [H1 H2]. split; [simpl; lia|]. intros [|m]; [reflexivity|]. simpl. rewrite H2.
    destruct (Nat.eqb m n); [|reflexivity]. reflexivity.
Qed.
Lemma set_nth_lt : forall {A} (l : list A) n a l', set_nth n a l = Some l' -> n < List.length l.
Proof.
  induction l as [|x l IH]; simpl; intros n a l' H; [discriminate|]. destruct n; [lia|].
  destruct (set_nth n a l) eqn:E; [|discriminate]. apply IH in E. lia.
Qed.

(** Value of field [a] after the settings [ss]: the last one for a tag with
    that address, or what was there before. *)
Definition field_after (atof : word -> num) (dict : list entry) (a : nat) (dflt : option val) (ss : list (word * word))
  : option val :=
  fold_left (fun cur s => match entry_of dict (fst s) with
                          | Some e => if Nat.eqb (e_addr e) a
                                      then match decode atof (e_ty e) (snd s) with Ok v => Some v | _ => None end
                                      else cur
                          | None => cur
                          end) ss dflt.

Section Settings.
Variable atof : word -> num.
Variable dict : list entry.
Hypothesis Hdict : NoDup (map e_tag dict).

Lemma entry_of_nth : forall t i e, nth_error dict i = Some e -> e_tag e = t -> entry_of dict t = Some e.
Proof.
  intros t i e H Ht. unfold entry_of. destruct (find (fun e0 => weqb t (e_tag e0)) dict) as [e'|] eqn:F.
  - apply find_some in F as [H1 H2]. apply weqb_eq in H2. f_equal.
    apply In_nth_error in H1 as [j H1].
    assert (i = j); [|subst; congruence].
    assert (X : nth_error (map e_tag dict) i = nth_error (map e_tag dict) j).
    { rewrite !nth_error_map, H, H1. simpl. congruence. }
    eapply NoDup_nth_error; [exact Hdict| |exact X].
    rewrite map_length. apply nth_error_Some. congruence.
  - exfalso. apply nth_error_In in H. pose proof (find_none _ _ F _ H) as X. simpl in X.
    rewrite <- Ht, weqb_refl in X. discriminate.
Qed.
Lemma entry_of_none : forall t, entry_of dict t = None <-> ~ In t (map e_tag dict).
Proof.
  intros t. unfold entry_of. split.
  - intros F H. apply in_map_iff in H as (e & <- & H). pose proof (find_none _ _ F _ H) as X. simpl in X.
    rewrite weqb_refl in X. discriminate.
  - intros H. destruct (find _ dict) as [e|] eqn:F; [|reflexivity]. exfalso. apply find_some in F as [H1 H2].
    apply weqb_eq in H2. subst. apply H, in_map, H1.
Qed.

(** isset marks exactly the tags seen so far. *)
Definition marks (s : list bool) (seen : list word) : Prop :=
  List.length s = List.length dict /\
  forall i e, nth_error dict i = Some e -> (nth_error s i = Some true <-> In (e_tag e) seen).

Definition addr_ok (st : rstate) : Prop := forall e, In e dict -> e_addr e < List.length (fields st).

(** A setting is convertible. *)
Definition decodes (s : word * word) : Prop :=
  match entry_of dict (fst s) with Some e => exists v, decode atof (e_ty e) (snd s) = Ok v | None => True end.

Lemma assign_ok : forall st seen s, marks (isset st) seen -> addr_ok st -> decodes s ->
  In (fst s) (map e_tag dict) -> ~ In (fst s) seen ->
  exists st', assign atof dict st s = Ok st' /\ marks (isset st') (fst s :: seen) /\ addr_ok st' /\
    forall a, nth_error (fields st') a = field_after atof dict a (nth_error (fields st) a) [s].
Proof.
  intros st seen [t v] [Hl Hm] Ha Hd Hin Hns. simpl in *.
  apply in_map_iff in Hin as (e & He & Hin). apply In_nth_error in Hin as [i Hi].
  assert (Hs : nth_error (isset st) i = Some false).
  { destruct (nth_error (isset st) i) as [[]|] eqn:E; [|reflexivity|].
    - apply (Hm i e Hi) in E. congruence.
    - apply nth_error_None in E. assert (i < List.length dict) by (apply nth_error_Some; congruence). lia. }
  unfold assign. simpl. rewrite (find_tag_complete dict (isset st) t i e Hdict Hi Hs He).
  pose proof (entry_of_nth t i e Hi He) as Heo.
  unfold decodes in Hd. simpl in Hd. rewrite Heo in Hd. destruct Hd as [x Hx].
  assert (Hil : i < List.length (isset st)) by (apply nth_error_Some; congruence).
  destruct (set_nth_some (isset st) i true Hil) as [s' Es]. unfold put. rewrite Es. cbn [bind].
  rewrite Hx. cbn [bind].
  assert (Hal : e_addr e < List.length (fields st)) by (apply Ha; eapply nth_error_In; eauto).
  destruct (set_nth_some (fields st) (e_addr e) x Hal) as [m Em]. rewrite Em. cbn [bind].
  eexists. split; [reflexivity|]. simpl.
  destruct (set_nth_spec _ _ _ _ Es) as [Es1 Es2]. destruct (set_nth_spec _ _ _ _ Em) as [Em1 Em2].
  split; [split; [lia|]|split].
  - intros j e' Hj. rewrite Es2. destruct (Nat.eqb j i) eqn:E.
    + apply Nat.eqb_eq in E. subst j. apply Nat.ltb_lt in Hil as X. rewrite X. assert (e' = e) by congruence. subst e'.
      split; [intros _; left; congruence|reflexivity].
    + apply Nat.eqb_neq in E. rewrite (Hm j e' Hj). split; [intros H; right; exact H|]. intros [H|H]; [|exact H].
      exfalso. apply E. assert (X : nth_error (map e_tag dict) j = nth_error (map e_tag dict) i).
      { rewrite !nth_error_map, Hi, Hj. simpl. congruence. }
      eapply NoDup_nth_error; [exact Hdict| |exact X]. rewrite map_length. apply nth_error_Some. congruence.
  - intros e' H'. simpl. rewrite Em1. apply Ha, H'.
  - intros a. unfold field_after. cbn [fold_left fst snd]. rewrite Em2, Heo, Hx, (Nat.eqb_sym (e_addr e) a).
    destruct (Nat.eqb a (e_addr e)) eqn:E; [|reflexivity].
    apply Nat.ltb_lt in Hal as X. rewrite X. reflexivity.
Qed.
Lemma assign_exit : forall st seen s, marks (isset st) seen ->
  ~ In (fst s) (map e_tag dict) \/ In (fst s) seen -> assign atof dict st s = Exit.
Proof.
  intros st seen [t v] [Hl Hm] H. unfold assign. simpl in *.
  destruct (find_tag dict (isset st) t) as [[i e]|] eqn:F; [|reflexivity]. exfalso.
  apply find_tag_some in F as (F1 & F2 & F3). destruct H as [H|H].
  - apply H. subst t. apply in_map. eapply nth_error_In; eauto.
  - subst t. apply (Hm i e F1) in H. congruence.
Qed.

Definition good (seen : list word) (ss : list (word * word)) : Prop :=
  well_formed (map e_tag dict) ss /\ forall t, In t (map fst ss) -> ~ In t seen.
Lemma well_formed_dec : forall known ss, well_formed known ss \/ ~ well_formed known ss.
Proof.
  intros known ss.
  destruct (in_dec (list_eq_dec ascii_dec) [] []) as [[]|_].
  assert (D1 : forall l : list word, NoDup l \/ ~ NoDup l).
  { intros l. destruct (ListDec.NoDup_dec (list_eq_dec ascii_dec) l); auto. }
  assert (D2 : forall l : list word, incl l known \/ ~ incl l known).
  { intros l. destruct (ListDec.incl_dec (list_eq_dec ascii_dec) l known); auto. }
  unfold well_formed. destruct (D1 (map fst ss)), (D2 (map fst ss)); tauto.
Qed.

Lemma fold_assign : forall ss st seen, marks (isset st) seen -> addr_ok st -> Forall decodes ss ->
  (good seen ss -> exists st', foldM (assign atof dict) ss st = Ok st' /\ marks (isset st') (rev (map fst ss) ++ seen) /\
     forall a, nth_error (fields st') a = field_after atof dict a (nth_error (fields st) a) ss) /\
  (~ good seen ss -> foldM (assign atof dict) ss st = Exit).
Proof.
  induction ss as [|s ss IH]; intros st seen Hm Ha Hd.
  - split.
    + intros _. exists st. repeat split; try reflexivity; try apply Hm; auto.
    + intros H. exfalso. apply H. split; [split; [constructor|intros ? []]|intros ? []].
  - apply Forall_cons_iff in Hd as [Hd1 Hd2].
    destruct (in_dec (list_eq_dec ascii_dec) (fst s) (map e_tag dict)) as [Hi|Hi].
    + destruct (in_dec (list_eq_dec ascii_dec) (fst s) seen) as [Hs|Hs].
      * split; intros H; [exfalso; apply H with (t := fst s); [left; reflexivity|exact Hs]|].
        cbn [foldM]. rewrite (assign_exit st seen s Hm (or_intror Hs)). reflexivity.
      * destruct (assign_ok st seen s Hm Ha Hd1 Hi Hs) as (st' & E & Hm' & Ha' & Hf). cbn [foldM]. rewrite E. cbn [bind].
        destruct (IH st' (fst s :: seen) Hm' Ha' Hd2) as [IH1 IH2].
        assert (G : good seen (s :: ss) <-> good (fst s :: seen) ss).
        { unfold good, well_formed. simpl. rewrite NoDup_cons_iff. split.
          - intros [[[H1 H2] H3] H4]. repeat split; auto.
            + intros x Hx. apply H3. right. exact Hx.
            + intros t Ht [H5|H5]; [subst; auto|]. apply (H4 t); auto.
          - intros [[H1 H2] H3]. repeat split; auto.
            + intros H. apply (H3 (fst s)); auto.
            + intros x [<-|Hx]; auto.
            + intros t [<-|Ht]; [exact Hs|]. intros H5. apply (H3 t Ht). auto. }
        split; intros H.
        -- rewrite G in H. destruct (IH1 H) as (st2 & E2 & H2 & H3). exists st2. split; [exact E2|]. split.
           ++ simpl. rewrite <- app_assoc. exact H2.
           ++ intros a. rewrite H3, Hf. reflexivity.
        -- apply IH2. rewrite <- G. exact H.
    + split; intros H; [exfalso; apply Hi, H; left; reflexivity|].
      cbn [foldM]. rewrite (assign_exit st seen s Hm (or_introl Hi)). reflexivity.
Qed.

Lemma marks_init : marks (map (fun _ => false) dict) [].
Proof.
  split; [apply map_length|]. intros i e Hi. rewrite nth_error_map, Hi. simpl. split; [discriminate|intros []].
Qed.

(** If the loop ends well, every setting converts. *)
Lemma fold_ok_decodes : forall ss st seen st', marks (isset st) seen -> addr_ok st ->
  foldM (assign atof dict) ss st = Ok st' -> Forall decodes ss.
Proof.
  induction ss as [|s ss IH]; intros st seen st' Hm Ha H; [constructor|]. cbn [foldM] in H.
  destruct (in_dec (list_eq_dec ascii_dec) (fst s) (map e_tag dict)) as [Hi|Hi];
    [|rewrite (assign_exit st seen s Hm (or_introl Hi)) in H; discriminate].
  destruct (in_dec (list_eq_dec ascii_dec) (fst s) seen) as [Hs|Hs];
    [rewrite (assign_exit st seen s Hm (or_intror Hs)) in H; discriminate|].
  assert (Hd : decodes s).
  { destruct (assign atof dict st s) as [st1| | |] eqn:E; try discriminate. unfold assign in E.
    destruct (find_tag dict (isset st) (fst s)) as [[i e]|] eqn:F; [|discriminate].
    apply find_tag_some in F as (F1 & F2 & F3). unfold decodes. rewrite (entry_of_nth _ _ _ F1 F3).
    unfold put in E. destruct (set_nth i true (isset st)); [|discriminate]. cbn [bind] in E.
    destruct (decode atof (e_ty e) (snd s)); try discriminate. eauto. }
  constructor; [exact Hd|].
  destruct (assign_ok st seen s Hm Ha Hd Hi Hs) as (st1 & E & Hm' & Ha' & _). rewrite E in H. cbn [bind] in H.
  eapply IH; eauto.
Qed.

(** What one file means. *)
Theorem read_file_ok : forall comment f dflt st,
  plain f -> (forall e, In e dict -> e_addr e < List.length dflt) ->
  read_file atof comment dict f dflt = Ok st <->
  (well_formed (map e_tag dict) (settings comment f) /\ Forall decodes (settings comment f) /\
   marks (isset st) (rev (map fst (settings comment f))) /\
   List.length (isset st) = List.length dict /\
   forall a, nth_error (fields st) a = field_after atof dict a (nth_error dflt a) (settings comment f)).
Proof.
  intros comment f dflt st Hp Ha. rewrite read_file_settings by exact Hp.
  set (ss := settings comment f). set (s0 := mkrs _ dflt).
  assert (Hm0 : marks (isset s0) []) by apply marks_init. assert (Ha0 : addr_ok s0) by exact Ha.
  assert (G : good [] ss <-> well_formed (map e_tag dict) ss) by (unfold good; intuition).
  split.
  - intros H. pose proof (fold_ok_decodes ss s0 [] st Hm0 Ha0 H) as Hd.
    destruct (fold_assign ss s0 [] Hm0 Ha0 Hd) as [F1 F2].
    destruct (well_formed_dec (map e_tag dict) ss) as [W|W].
    + apply G in W as W'. destruct (F1 W') as (st' & E & H1 & H2). assert (st' = st) by congruence. subst st'.
      rewrite app_nil_r in H1. split; [exact W|]. split; [exact Hd|]. split; [exact H1|]. split; [apply H1|exact H2].
    + rewrite F2 in H; [discriminate|]. intros X. apply W, G, X.
  - intros (W & Hd & H1 & H2 & H3). destruct (fold_assign ss s0 [] Hm0 Ha0 Hd) as [F1 _].
    apply G in W. destruct (F1 W) as (st' & E & H1' & H2'). rewrite E. f_equal. rewrite app_nil_r in H1'.
    destruct st as [s m], st' as [s' m']. simpl in *. f_equal.
    + assert (forall i, nth_error s' i = nth_error s i).
      { intros i. destruct (nth_error dict i) as [e|] eqn:Ei.
        - destruct H1 as [L1 K1], H1' as [L2 K2]. specialize (K1 i e Ei). specialize (K2 i e Ei).
          assert (i < List.length dict) by (apply nth_error_Some; congruence).
          destruct (nth_error s i) as [x|] eqn:X; [|apply nth_error_None in X; lia].
          destruct (nth_error s' i) as [y|] eqn:Y; [|apply nth_error_None in Y; lia].
          f_equal. destruct x, y; try reflexivity.
          + assert (Some false = Some true) by (apply K2, K1; reflexivity). discriminate.
          + assert (Some false = Some true) by (apply K1, K2; reflexivity). discriminate.
        - apply nth_error_None in Ei. destruct H1 as [L1 _], H1' as [L2 _].
          transitivity (@None bool); [|symmetry]; apply nth_error_None; lia. }
      clear - H. revert s' H. induction s as [|x s IH]; intros [|y s'] H; try reflexivity; try (specialize (H 0); discriminate).
      f_equal; [specialize (H 0); simpl in H; congruence|]. apply IH. intros i. apply (H (S i)).
    + assert (forall i, nth_error m' i = nth_error m i) by (intros i; rewrite H2', H3; reflexivity).
      clear - H. revert m' H. induction m as [|x m IH]; intros [|y m'] H; try reflexivity; try (specialize (H 0); discriminate).
      f_equal; [specialize (H 0); simpl in H; congruence|]. apply IH. intros i. apply (H (S i)).
Qed.
Theorem read_file_exit : forall comment f dflt,
  plain f -> (forall e, In e dict -> e_addr e < List.length dflt) ->
  Forall decodes (settings comment f) -> ~ well_formed (map e_tag dict) (settings comment f) ->
  read_file atof comment dict f dflt = Exit.
Proof.
  intros comment f dflt Hp Ha Hd W. rewrite read_file_settings by exact Hp.
  apply (fold_assign (settings comment f) (mkrs (map (fun _ => false) dict) dflt) [] marks_init Ha Hd).
  unfold good. intros [X _]. exact (W X).
Qed.

(** Value of one field. *)
Lemma field_after_app : forall a x s1 s2,
  field_after atof dict a x (s1 ++ s2) = field_after atof dict a (field_after atof dict a x s1) s2.
Proof. intros. unfold field_after. apply fold_left_app. Qed.
Lemma field_after_none : forall a ss x,
  (forall t v e, In (t, v) ss -> entry_of dict t = Some e -> e_addr e <> a) -> field_after atof dict a x ss = x.
Proof.
  intros a ss. induction ss as [|[t v] ss IH]; intros x H; [reflexivity|].
  change (field_after atof dict a x ((t, v) :: ss)) with (field_after atof dict a (field_after atof dict a x [(t, v)]) ss).
  rewrite IH by (intros; eapply H; [right; eauto|eauto]).
  unfold field_after. simpl. destruct (entry_of dict t) as [e|] eqn:E; [|reflexivity].
  destruct (Nat.eqb_spec (e_addr e) a); [|reflexivity]. exfalso. eapply H; [left; reflexivity|eauto|auto].
Qed.
Lemma field_after_one : forall a ss x t v e, In (t, v) ss -> entry_of dict t = Some e -> e_addr e = a ->
  (forall t' v' e', In (t', v') ss -> entry_of dict t' = Some e' -> e_addr e' = a -> t' = t) ->
  NoDup (map fst ss) ->
  field_after atof dict a x ss = match decode atof (e_ty e) v with Ok y => Some y | _ => None end.
Proof.
  intros a ss x t v e Hin He Ha Hu Hd. apply in_split in Hin as (s1 & s2 & ->).
  rewrite field_after_app. change ((t, v) :: s2) with ([(t, v)] ++ s2). rewrite field_after_app.
  rewrite (field_after_none a s2).
  - unfold field_after at 1. simpl. rewrite He, Ha, Nat.eqb_refl. reflexivity.
  - intros t' v' e' H' E' X. assert (t' = t) by (eapply Hu; eauto; apply in_or_app; right; right; exact H'). subst t'.
    rewrite map_app in Hd. simpl in Hd. apply NoDup_remove_2 in Hd. apply Hd, in_or_app. right.
    change t with (fst (t, v')). apply in_map, H'.
Qed.

(** Order does not matter when no two settings share a field. *)
Definition no_alias (ss : list (word * word)) : Prop :=
  forall t1 v1 e1 t2 v2 e2, In (t1, v1) ss -> In (t2, v2) ss ->
    entry_of dict t1 = Some e1 -> entry_of dict t2 = Some e2 -> e_addr e1 = e_addr e2 -> t1 = t2.
Lemma field_after_perm : forall a x s1 s2, Permutation s1 s2 -> NoDup (map fst s1) -> no_alias s1 ->
  field_after atof dict a x s1 = field_after atof dict a x s2.
Proof.
  intros a x s1 s2 HP Hd Hn.
  destruct (existsb (fun s => match entry_of dict (fst s) with Some e => Nat.eqb (e_addr e) a | None => false end) s1) eqn:E.
  - apply existsb_exists in E as ([t v] & Hin & E). simpl in E. destruct (entry_of dict t) as [e|] eqn:He; [|discriminate].
    apply Nat.eqb_eq in E.
    assert (Hn2 : forall t' v' e', In (t', v') s1 -> entry_of dict t' = Some e' -> e_addr e' = a -> t' = t).
    { intros t' v' e' H' E' X. eapply (Hn t' v' e' t v e); eauto. congruence. }
    rewrite (field_after_one a s1 x t v e Hin He E Hn2 Hd).
    rewrite (field_after_one a s2 x t v e); auto.
    + eapply Permutation_in; eauto.
    + intros t' v' e' H'. apply (Hn2 t' v' e'). eapply Permutation_in; [apply Permutation_sym; eauto|eauto].
    + eapply Permutation_NoDup; [apply Permutation_map; eauto|exact Hd].
  - assert (X : forall t v e, In (t, v) s1 -> entry_of dict t = Some e -> e_addr e <> a).
    { intros t v e H He Ha. enough (Y : existsb (fun s => match entry_of dict (fst s) with Some e => Nat.eqb (e_addr e) a | None => false end) s1 = true) by congruence.
      apply existsb_exists. exists (t, v). split; [exact H|]. simpl. rewrite He, Ha, Nat.eqb_refl. reflexivity. }
    rewrite (field_after_none a s1) by exact X. rewrite (field_after_none a s2); [reflexivity|].
    intros t v e H. apply (X t v). eapply Permutation_in; [apply Permutation_sym; eauto|eauto].
Qed.
Lemma perm_settings : forall comment f1 f2, Permutation (lines f1) (lines f2) ->
  Permutation (settings comment f1) (settings comment f2).
Proof. intros. unfold settings. apply Permutation_flat_map. assumption. Qed.
Lemma plain_perm : forall f1 f2, Permutation (lines f1) (lines f2) -> ~ In NUL f2 -> plain f1 -> plain f2.
Proof.
  intros f1 f2 H H0 [_ H1]. split; [exact H0|]. intros l Hl. apply H1. eapply Permutation_in; [apply Permutation_sym; eauto|auto].
Qed.
Theorem read_file_order : forall comment f1 f2 dflt st,
  plain f1 -> plain f2 -> Permutation (lines f1) (lines f2) ->
  (forall e, In e dict -> e_addr e < List.length dflt) ->
  no_alias (settings comment f1) ->
  read_file atof comment dict f1 dflt = Ok st -> read_file atof comment dict f2 dflt = Ok st.
Proof.
  intros comment f1 f2 dflt st H1 H2 HP Ha Hn H.
  apply (read_file_ok comment f1 dflt st H1 Ha) in H as ((W1 & W2) & Hd & Hm & Hl & Hf).
  pose proof (perm_settings comment f1 f2 HP) as Hs.
  apply (read_file_ok comment f2 dflt st H2 Ha). split; [|split; [|split; [|split; [exact Hl|]]]].
  - split.
    + eapply Permutation_NoDup; [apply Permutation_map; exact Hs|exact W1].
    + intros x Hx. apply W2. eapply Permutation_in; [apply Permutation_map, Permutation_sym, Hs|exact Hx].
  - rewrite Forall_forall in *. intros s X. apply Hd. eapply Permutation_in; [apply Permutation_sym, Hs|exact X].
  - destruct Hm as [L K]. split; [exact L|]. intros i e Hi. rewrite (K i e Hi).
    rewrite <- !in_rev. split; apply Permutation_in; apply Permutation_map; [|apply Permutation_sym]; exact Hs.
  - intros a. rewrite Hf. apply field_after_perm; assumption.
Qed.
End Settings.
