(** The loop over my_getopt against a scan of the argument list. *)
From Coq Require Import ZArith List Ascii String Bool Arith Lia.
From Verif Require Import CPrelude GetoptModel CmdSpec.
Import ListNotations.
Open Scope nat_scope.

(** ** The letters of one element *)
Section Scan.
  Variable posix : bool.
  Variables plain valued : ascii -> bool.
  Notation scan := (scan posix plain valued).
  Fixpoint letters (r : list str) (cs : str) : parsed :=
    match cs with
    | [] => scan r
    | c :: cs =>
      if plain c then add_opt (c, None) (letters r cs)
      else if valued c then
        match cs with
        | [] => match r with [] => Rejected [] c | x :: r' => add_opt (c, Some x) (scan r') end
        | _ => add_opt (c, Some cs) (scan r)
        end
      else Rejected [] c
    end.
  Lemma scan_cons : forall a r, scan (a :: r) =
    if list_eq_dec ascii_dec a (lit "--") then Parsed [] [] true r
    else if is_option a then letters r (tl a)
    else if posix then Parsed [] [] true (a :: r) else add_word a (scan r).
  Proof.
    intros a r. change is_option with dash_word. change (lit "--") with (str_of "--"). cbn [CmdSpec.scan].
    destruct (list_eq_dec ascii_dec a (str_of "--")); auto.
    destruct (dash_word a); auto.
    generalize (tl a). intros cs. induction cs as [|c cs IH]; [reflexivity|]. cbn [letters]. rewrite <- IH. reflexivity.
  Qed.
End Scan.

(** ** Arrays *)
Lemma get_app : forall {A} (p : list A) x r, get (p ++ x :: r) (List.length p) = Ok x.
Proof. intros. unfold get. rewrite nth_error_app2, Nat.sub_diag by lia. reflexivity. Qed.
Lemma put_app : forall {A} (p : list A) x y r, put (p ++ x :: r) (List.length p) y = Ok (p ++ y :: r).
Proof.
  intros A p x y r. unfold put.
  assert (E : set_nth (List.length p) y (p ++ x :: r) = Some (p ++ y :: r)).
  { induction p; simpl; auto. rewrite IHp. reflexivity. }
  rewrite E. reflexivity.
Qed.
Lemma shift_ok : forall o p x r, shift (List.length o) (List.length p) (p ++ x :: o ++ r) = Ok (p ++ o ++ match rev (x :: o) with y :: _ => y | [] => x end :: r).
Proof.
  induction o as [|y o IH]; intros p x r; cbn [shift List.length]; [reflexivity|].
  replace (List.length p + 1) with (List.length (p ++ [x])) by (rewrite app_length; simpl; lia).
  replace (p ++ x :: (y :: o) ++ r) with ((p ++ [x]) ++ y :: o ++ r) by (rewrite <- app_assoc; reflexivity).
  rewrite get_app. cbn [bind]. rewrite <- app_assoc. cbn [app]. rewrite put_app. cbn [bind].
  replace (List.length (p ++ [x])) with (List.length (p ++ [y])) by (rewrite !app_length; reflexivity).
  replace (p ++ y :: y :: o ++ r) with ((p ++ [y]) ++ y :: o ++ r) by (rewrite <- app_assoc; reflexivity).
  rewrite IH. rewrite <- app_assoc. cbn [app]. do 4 f_equal.
  cbn [rev]. destruct (rev o) as [|z q]; reflexivity.
Qed.
Lemma move_ok : forall p x o r, o <> [] ->
  (l <- shift (List.length o) (List.length p) (p ++ x :: o ++ r) ;; put l (List.length p + List.length o) x) = Ok (p ++ o ++ x :: r).
Proof.
  intros p x o r NE. rewrite shift_ok. cbn [bind].
  replace (List.length p + List.length o) with (List.length (p ++ o)) by (rewrite app_length; lia).
  rewrite app_assoc, put_app, <- app_assoc. reflexivity.
Qed.
Lemma permute_ok : forall n p o r, o <> [] ->
  permute (List.length n) (List.length p + List.length n) (List.length p + List.length n + List.length o - 1) (p ++ n ++ o ++ r) = Ok (p ++ o ++ n ++ r).
Proof.
  intros n. induction n as [|x n IH] using rev_ind; intros p o r NE; [reflexivity|].
  rewrite app_length. cbn [List.length]. rewrite Nat.add_1_r. cbn [permute].
  replace (List.length p + S (List.length n) - 1) with (List.length (p ++ n)) by (rewrite app_length; lia).
  rewrite <- (app_assoc n [x]), (app_assoc p n). cbn [app]. rewrite get_app. cbn [bind].
  assert (L : 1 <= List.length o) by (destruct o; [congruence|simpl; lia]).
  replace (List.length p + S (List.length n) + List.length o - 1 - List.length (p ++ n)) with (List.length o) by (rewrite app_length; lia).
  replace (Nat.max (List.length (p ++ n)) (List.length p + S (List.length n) + List.length o - 1)) with (List.length (p ++ n) + List.length o)
    by (rewrite app_length; lia).
  pose proof (move_ok (p ++ n) x o r NE) as M. destruct (shift (List.length o) (List.length (p ++ n)) ((p ++ n) ++ x :: o ++ r)) as [l| | |]; cbn [bind] in *; try discriminate.
  rewrite M. cbn [bind].
  replace (List.length (p ++ n)) with (List.length p + List.length n) by (rewrite app_length; lia).
  replace (List.length p + S (List.length n) + List.length o - 1 - 1) with (List.length p + List.length n + List.length o - 1) by lia.
  rewrite <- app_assoc. rewrite IH by auto. rewrite <- app_assoc. reflexivity.
Qed.
Lemma find_none : forall l p r, (forall a, In a l -> is_option a = false) -> find_option (List.length l) (List.length p) (p ++ l ++ r) = Ok None.
Proof.
  induction l as [|x l IH]; intros p r H; [reflexivity|]. cbn [find_option List.length app]. rewrite get_app. cbn [bind].
  rewrite H by (left; auto). replace (List.length p + 1) with (List.length (p ++ [x])) by (rewrite app_length; simpl; lia).
  replace (p ++ x :: l ++ r) with ((p ++ [x]) ++ l ++ r) by (rewrite <- app_assoc; reflexivity). apply IH. intros a I. apply H. right; auto.
Qed.
Lemma find_some : forall l p e r m, (forall a, In a l -> is_option a = false) -> is_option e = true ->
  find_option (List.length l + S m) (List.length p) (p ++ l ++ e :: r) = Ok (Some (List.length p + List.length l)).
Proof.
  induction l as [|x l IH]; intros p e r m H HE.
  - cbn [List.length Nat.add find_option app]. rewrite get_app. cbn [bind]. rewrite HE. do 2 f_equal. lia.
  - cbn [find_option List.length Nat.add app]. rewrite get_app. cbn [bind].
    rewrite H by (left; auto). replace (List.length p + 1) with (List.length (p ++ [x])) by (rewrite app_length; simpl; lia).
    replace (p ++ x :: l ++ e :: r) with ((p ++ [x]) ++ l ++ e :: r) by (rewrite <- app_assoc; reflexivity).
    rewrite IH by (auto; intros a I; apply H; right; auto). rewrite app_length. simpl. do 2 f_equal. lia.
Qed.

(** ** One call *)
Section Engine.
  Context {A : Type}.
  Variable posix : bool.
  Variable argc : nat.
  Variable optstring : str.
  Variables plain valued : ascii -> bool.
  (** the option string describes the letters; the colon is the exception *)
  Hypothesis HP : forall c, plain c = true -> exists os, strchr optstring c = Some os /\ nth_error os 1 <> Some ":"%char.
  Hypothesis HV : forall c, plain c = false -> valued c = true ->
    exists os, strchr optstring c = Some os /\ nth_error os 1 = Some ":"%char /\ nth_error os 2 <> Some ":"%char.
  Hypothesis HU : forall c, plain c = false -> valued c = false -> c <> ":"%char -> strchr optstring c = None.
  Hypothesis HC : match optstring with x :: _ => x <> ":"%char | [] => True end.
  Variable handle : A -> ascii -> option str -> outcome A.
  Hypothesis HQ : forall a, match handle a "?" None with Ok _ => False | _ => True end.

  Definition words (l : list str) : Prop := forall a, In a l -> is_option a = false.
  (** the array at the beginning *)
  Variable L0 : list str.
  (** Between two elements: [pos] are the words seen so far, [rest] is not yet seen. *)
  Definition between (s : gstate) (pos rest : list str) : Prop :=
    exists p o extra, 1 <= List.length p /\ words pos /\ (posix = true -> pos = []) /\ optnext s = None /\
      argc = List.length p + List.length pos + List.length o + List.length rest /\ argv s = p ++ pos ++ o ++ rest ++ extra /\
      ((gstart s = 0 /\ o = [] /\ optind s = List.length p) \/
       (gstart s = List.length p /\ o <> [] /\ gend s = List.length p + List.length pos /\ optind s = List.length p + List.length pos + List.length o)) /\
      (pos = [] -> argv s = L0).
  (** Inside an element: [cs] are the letters left. *)
  Definition inside (s : gstate) (pos : list str) (cs : str) (rest : list str) : Prop :=
    exists p e extra, 1 <= List.length p /\ words pos /\ (posix = true -> pos = []) /\ optnext s = Some cs /\ cs <> [] /\
      argc = List.length p + List.length pos + 1 + List.length rest /\ argv s = p ++ pos ++ e :: rest ++ extra /\
      optind s = List.length p + List.length pos /\
      ((gstart s = 0 /\ pos = []) \/ (gstart s = List.length p /\ gend s = List.length p + List.length pos)) /\
      (pos = [] -> argv s = L0).
  (** At the end. *)
  Definition finished (s : gstate) (files : list str) : Prop :=
    exists p extra, argv s = p ++ files ++ extra /\ optind s = List.length p /\ argc = List.length p + List.length files.

  Notation call := (my_getopt posix argc optstring).
  Notation loop := (opt_loop posix argc optstring handle).

  Lemma permute_between : forall s pos rest, between s pos rest ->
    exists q extra oa en, getopt_permute s = Ok (G (q ++ (pos ++ rest) ++ extra) (List.length q) None 0 en oa) /\
      1 <= List.length q /\ argc = List.length q + List.length (pos ++ rest) /\ words pos /\ (posix = true -> pos = []) /\
      (pos = [] -> q ++ (pos ++ rest) ++ extra = L0).
  Proof.
    intros s pos rest (p & o & extra & P1 & PW & PP & ON & AC & AV & CS & HL).
    exists (p ++ o), extra, (optarg s), (gend s). split.
    - unfold getopt_permute.
      replace (optind s =? 0) with false by (symmetry; apply Nat.eqb_neq; lia). rewrite ON.
      destruct CS as [(G0 & O0 & I0)|(G0 & O0 & E0 & I0)].
      + rewrite G0. cbn [Nat.eqb]. subst o. rewrite app_nil_r. destruct s as [l i n st en oa]; cbn [argv optind optnext gstart gend optarg] in *. subst. rewrite <- app_assoc. reflexivity.
      + replace (gstart s =? 0) with false by (symmetry; apply Nat.eqb_neq; lia).
        assert (LO : 1 <= List.length o) by (destruct o; [congruence|simpl; lia]).
        rewrite AV, I0, E0, G0. replace (List.length p + List.length pos - List.length p) with (List.length pos) by lia.
        rewrite permute_ok by auto. cbn [bind].
        replace (Z.to_nat (Z.max 1 (Z.of_nat (List.length p + List.length pos + List.length o) - (Z.of_nat (List.length p + List.length pos) - Z.of_nat (List.length p)))))
          with (List.length (p ++ o)) by (rewrite app_length; lia).
        rewrite <- !app_assoc. reflexivity.
    - rewrite !app_length. split; [lia|]. split; [lia|]. split; [auto|]. split; [auto|].
      intros ->. rewrite <- HL, AV by auto. cbn [app]. rewrite <- app_assoc. reflexivity.
  Qed.

  Lemma call_end : forall s pos rest, between s pos rest -> words rest -> (posix = true -> rest = []) -> exists s', call s = Ok (None, s') /\ finished s' (pos ++ rest) /\ (pos ++ rest = [] -> argv s' = L0).
  Proof.
    intros s pos rest B W PR. destruct (permute_between s pos rest B) as (q & extra & oa & en & E & Q1 & AC & PW & PP & HL).
    unfold my_getopt. rewrite E. cbn [bind]. unfold getopt_next. cbn [argv optind optnext gstart gend optarg].
    destruct (argc <=? List.length q) eqn:L.
    - apply Nat.leb_le in L. assert (Z : pos ++ rest = []) by (destruct (pos ++ rest); [auto|simpl in AC; lia]). rewrite Z in *.
      eexists. split; [reflexivity|]. apply app_eq_nil in Z. destruct Z as [-> ->]. split; [|intros _; cbn [argv app] in *; auto].
      exists q, extra. cbn [argv optind app]. split; [auto|]. split; [auto|]. simpl in *. lia.
    - apply Nat.leb_gt in L. destruct (pos ++ rest) as [|w l] eqn:PE; [simpl in AC; lia|]. cbn [app].
      rewrite get_app. cbn [bind].
      assert (WA : words (w :: l)). { rewrite <- PE. intros a I. apply in_app_or in I. destruct I; auto. }
      rewrite (WA w) by (left; auto). destruct posix.
      + rewrite PP, PR in PE by auto. discriminate.
      + replace (argc - (List.length q + 1)) with (List.length l) by (rewrite AC; simpl; lia).
        replace (q ++ w :: l ++ extra) with ((q ++ [w]) ++ l ++ extra) by (rewrite <- app_assoc; reflexivity).
        replace (List.length q + 1) with (List.length (q ++ [w])) by (rewrite app_length; reflexivity).
        rewrite find_none by (intros a I; apply WA; right; auto). cbn [bind].
        eexists. split; [reflexivity|]. split; [|discriminate]. exists q, extra. cbn [argv optind]. rewrite <- app_assoc. auto.
  Qed.
  Lemma call_posix : forall s w r, posix = true -> between s [] (w :: r) -> is_option w = false -> exists s', call s = Ok (None, s') /\ finished s' (w :: r) /\ argv s' = L0.
  Proof.
    intros s w r PX B W. destruct (permute_between s _ _ B) as (q & extra & oa & en & E & Q1 & AC & PW & PP & HL).
    unfold my_getopt. rewrite E. cbn [bind]. unfold getopt_next. cbn [argv optind optnext gstart gend optarg app] in *.
    replace (argc <=? List.length q) with false by (symmetry; apply Nat.leb_gt; simpl in AC; lia).
    rewrite get_app. cbn [bind]. rewrite W, PX.
    eexists. split; [reflexivity|]. split; [|apply HL; auto]. exists q, extra. cbn [argv optind]. auto.
  Qed.
  (** the first option after the words w *)
  Lemma call_option : forall s pos w e r, between s pos (w ++ e :: r) -> words w -> is_option e = true -> (posix = true -> w = []) ->
    exists q extra oa en st, 1 <= List.length q /\ argc = List.length q + List.length (pos ++ w) + 1 + List.length r /\
      ((pos ++ w = [] /\ st = 0) \/ (st = List.length q /\ en = List.length q + List.length (pos ++ w))) /\
      call s = getopt_element argc optstring (G (q ++ (pos ++ w) ++ e :: r ++ extra) (List.length q + List.length (pos ++ w)) None st en oa) /\
      (pos ++ w = [] -> q ++ (pos ++ w) ++ e :: r ++ extra = L0).
  Proof.
    intros s pos w e r B W HE PW'. destruct (permute_between s _ _ B) as (q & extra & oa & en & E & Q1 & AC & PW & PP & HL).
    unfold my_getopt. rewrite E. cbn [bind]. unfold getopt_next. cbn [argv optind optnext gstart gend optarg].
    rewrite !app_length in AC. cbn [List.length] in AC.
    replace (argc <=? List.length q) with false by (symmetry; apply Nat.leb_gt; lia).
    assert (WA : words (pos ++ w)) by (intros a I; apply in_app_or in I; destruct I; auto).
    assert (AV : q ++ (pos ++ w ++ e :: r) ++ extra = q ++ (pos ++ w) ++ e :: r ++ extra) by (rewrite <- !app_assoc; reflexivity).
    rewrite AV in *. assert (AC' : argc = List.length q + List.length (pos ++ w) + 1 + List.length r) by (rewrite app_length; lia).
    destruct (pos ++ w) as [|x l] eqn:PE.
    - cbn [app List.length] in *. rewrite get_app. cbn [bind]. rewrite HE.
      exists q, extra, oa, en, 0. apply app_eq_nil in PE. destruct PE as [-> ->]. repeat split; auto; try lia. rewrite Nat.add_0_r. reflexivity.
    - cbn [app]. rewrite get_app. cbn [bind]. rewrite (WA x) by (left; auto). destruct posix.
      + rewrite PP, PW' in PE by auto. discriminate.
      + replace (q ++ x :: l ++ e :: r ++ extra) with ((q ++ [x]) ++ l ++ e :: r ++ extra) by (rewrite <- app_assoc; reflexivity).
        replace (List.length q + 1) with (List.length (q ++ [x])) by (rewrite app_length; reflexivity).
        replace (argc - List.length (q ++ [x])) with (List.length l + S (List.length r)) by (rewrite app_length; simpl in *; lia).
        rewrite find_some by (auto; intros a I; apply WA; right; auto). cbn [bind].
        exists q, extra, oa, (List.length (q ++ [x]) + List.length l), (List.length q).
        split; [auto|]. split; [auto|]. split. { right. rewrite app_length. simpl. split; [auto|lia]. }
        split; [|discriminate]. f_equal. f_equal; [rewrite <- app_assoc; reflexivity|rewrite app_length; simpl; lia].
  Qed.
  Lemma call_mark : forall s pos w r, between s pos (w ++ lit "--" :: r) -> words w -> (posix = true -> w = []) ->
    exists s', call s = Ok (None, s') /\ (pos ++ w = [] -> finished s' r /\ argv s' = L0).
  Proof.
    intros s pos w r B W PX. destruct (call_option s pos w (lit "--") r B W eq_refl PX) as (q & extra & oa & en & st & Q1 & AC & CS & -> & HL).
    unfold getopt_element. cbn [argv optind optnext gstart gend optarg].
    rewrite <- app_length, app_assoc, get_app. cbn [bind].
    destruct (list_eq_dec ascii_dec (lit "--") (lit "--")); [|congruence].
    eexists. split; [reflexivity|]. intros Z. rewrite Z in *. rewrite app_nil_r. split; [|cbn [argv]; apply HL; auto]. exists (q ++ [lit "--"]), extra. cbn [argv optind].
    rewrite <- app_assoc, app_length. cbn [List.length app] in *. repeat split; auto; lia.
  Qed.
  Lemma call_letters : forall s pos w e r, between s pos (w ++ e :: r) -> words w -> is_option e = true -> (posix = true -> w = []) -> e <> lit "--" ->
    exists s', inside s' (pos ++ w) (tl e) r /\ call s = call s'.
  Proof.
    intros s pos w e r B W HE PX NE. pose proof B as B'.
    destruct B' as (_ & _ & _ & _ & PW & PP & _).
    destruct (call_option s pos w e r B W HE PX) as (q & extra & oa & en & st & Q1 & AC & CS & -> & HL).
    unfold getopt_element. cbn [argv optind optnext gstart gend optarg].
    rewrite <- app_length, app_assoc, get_app. cbn [bind].
    destruct (list_eq_dec ascii_dec e (lit "--")); [congruence|].
    exists (G ((q ++ pos ++ w) ++ e :: r ++ extra) (List.length (q ++ pos ++ w)) (Some (tl e)) st en oa). split.
    - exists q, e, extra. cbn [argv optind optnext gstart gend optarg]. rewrite (app_length q (pos ++ w)), <- !app_assoc.
      split; [auto|]. split; [intros a I; apply in_app_or in I; destruct I; auto|].
      split; [intros X; rewrite PP, PX by auto; reflexivity|]. split; [auto|].
      split; [destruct e as [|? [|? ?]]; try discriminate HE; discriminate|]. split; [auto|]. split; [reflexivity|]. split; [auto|].
      split; [destruct CS as [[-> ->]|[-> ->]]; auto|]. intros Z. rewrite <- HL, <- app_assoc by auto. reflexivity.
    - unfold my_getopt, getopt_permute. cbn [argv optind optnext gstart gend optarg].
      replace (List.length (q ++ pos ++ w) =? 0) with false by (symmetry; apply Nat.eqb_neq; rewrite app_length; lia).
      cbn [optnext bind]. unfold getopt_next. cbn [argv optind optnext gstart gend optarg].
      replace (argc <=? List.length (q ++ pos ++ w)) with false by (symmetry; apply Nat.leb_gt; rewrite AC, !app_length; lia).
      reflexivity.
  Qed.
  (** one letter *)
  Lemma call_inside : forall s pos c cs r, inside s pos (c :: cs) r ->
    (plain c = true -> exists s', call s = Ok (Some c, s') /\ optarg s' = None /\
       match cs with [] => between s' pos r | _ => inside s' pos cs r end) /\
    (plain c = false -> valued c = true ->
       match cs with
       | [] => match r with
           | [] => exists s', call s = Ok (Some "?"%char, s') /\ optarg s' = None
           | x :: r' => exists s', call s = Ok (Some c, s') /\ optarg s' = Some x /\ between s' pos r' end
       | _ => exists s', call s = Ok (Some c, s') /\ optarg s' = Some cs /\ between s' pos r
       end) /\
    (plain c = false -> valued c = false -> c <> ":"%char -> exists s', call s = Ok (Some "?"%char, s') /\ optarg s' = None).
  Proof.
    intros s pos c cs r (p & e & extra & P1 & PW & PP & ON & NE & AC & AV & OI & CS & HL).
    assert (K : call s = getopt_short argc optstring s).
    { unfold my_getopt, getopt_permute. replace (optind s =? 0) with false by (symmetry; apply Nat.eqb_neq; lia).
      rewrite ON. cbn [bind]. unfold getopt_next. replace (argc <=? optind s) with false by (symmetry; apply Nat.leb_gt; lia).
      rewrite ON. reflexivity. }
    rewrite K. unfold getopt_short, shortopts. rewrite ON.
    assert (BT : forall o l oa, o <> [] -> argv s = p ++ pos ++ o ++ l ++ extra -> argc = List.length p + List.length pos + List.length o + List.length l ->
       between (G (argv s) (List.length p + List.length pos + List.length o) None (gstart s) (gend s) oa) pos l).
    { intros o l oa NO A1 A2. destruct CS as [[G0 ->]|[G0 E0]].
      - exists (p ++ o), [], extra. cbn [argv optind optnext gstart gend optarg app List.length] in *. rewrite app_length.
        split; [lia|]. split; [auto|]. split; [auto|]. split; [auto|]. split; [lia|]. split; [rewrite A1, <- app_assoc; reflexivity|]. split; [|auto]. left. repeat split; auto; lia.
      - exists p, o, extra. cbn [argv optind optnext gstart gend optarg] in *. repeat split; auto. }
    split; [|split].
    - intros PL. destruct (HP c PL) as (os & -> & NC).
      replace (match nth_error os 1 with Some x => if ascii_dec x ":" then true else false | None => false end) with false
        by (destruct (nth_error os 1) as [x|]; [destruct (ascii_dec x ":"); congruence|auto]).
      cbn [bind]. destruct cs as [|c' cs].
      + eexists. cbn [fst snd]. split; [reflexivity|]. split; [reflexivity|]. rewrite OI.
        apply (BT [e] r None); [discriminate|rewrite AV; reflexivity|simpl; lia].
      + eexists. cbn [fst snd]. split; [reflexivity|]. split; [reflexivity|].
        exists p, e, extra. cbn [argv optind optnext gstart gend optarg]. repeat split; auto; discriminate.
    - intros PL VA. destruct (HV c PL VA) as (os & -> & C1 & C2). rewrite C1. destruct (ascii_dec ":" ":"); [|congruence].
      destruct cs as [|c' cs].
      + replace (match nth_error os 2 with Some x => if ascii_dec x ":" then true else false | None => false end) with false
          by (destruct (nth_error os 2) as [x|]; [destruct (ascii_dec x ":"); congruence|auto]).
        destruct r as [|x r].
        * replace (optind s + 1 =? argc) with true by (symmetry; apply Nat.eqb_eq; simpl in AC; lia).
          assert (ER : match optstring with x :: _ => if ascii_dec x ":" then ":"%char else "?"%char | [] => "?"%char end = "?"%char)
            by (destruct optstring as [|x os']; auto; destruct (ascii_dec x ":"); congruence).
          cbv zeta. rewrite ER. cbn [bind fst snd]. eexists. split; reflexivity.
        * replace (optind s + 1 =? argc) with false by (symmetry; apply Nat.eqb_neq; simpl in AC; lia).
          assert (A1 : argv s = (p ++ pos ++ [e]) ++ x :: r ++ extra) by (rewrite AV, <- !app_assoc; reflexivity).
          assert (A2 : optind s + 1 = List.length (p ++ pos ++ [e])) by (rewrite OI, !app_length; simpl; lia).
          cbv zeta. rewrite A2. replace (get (argv s) (List.length (p ++ pos ++ [e]))) with (Ok x) by (rewrite A1, get_app; reflexivity). cbn [bind fst snd]. eexists. split; [reflexivity|]. split; [reflexivity|].
          replace (List.length (p ++ pos ++ [e]) + 1) with (List.length p + List.length pos + List.length [e; x]) by (rewrite !app_length; simpl; lia).
          apply (BT [e; x] r (Some x)); [discriminate|rewrite AV; reflexivity|simpl in *; lia].
      + cbn [bind fst snd]. eexists. split; [reflexivity|]. split; [reflexivity|]. rewrite OI.
        apply (BT [e] r (Some (c' :: cs))); [discriminate|rewrite AV; reflexivity|simpl; lia].
    - intros PL VA CO. rewrite (HU c PL VA CO). cbn [bind fst snd]. eexists. split; [reflexivity|]. destruct cs; reflexivity.
  Qed.

  (** ** The loop *)
  Fixpoint handles (os : list (ascii * option str)) (a : A) : outcome A :=
    match os with [] => Ok a | (c, x) :: r => a <- handle a c x ;; handles r a end.
  Definition letters_in (l : list str) : nat := fold_right (fun a n => List.length a + n) 0 l.
  Definition then_ {B : Type} (x : outcome A) (k : A -> outcome B -> Prop) (run : outcome B) : Prop :=
    match x with Ok a => k a run | Exit => run = Exit | UB => run = UB | Stuck => run = Stuck end.
  Definition agrees (pos : list str) (q : parsed) (a : A) (run : outcome (A * gstate)) : Prop :=
    match q with
    | Parsed os before stopped after =>
        then_ (handles os a) (fun a' run => exists s', run = Ok (a', s') /\ ((stopped = true -> pos ++ before = []) -> finished s' (pos ++ before ++ after)) /\
          (pos ++ before = [] -> argv s' = L0)) run
    | Rejected os c => c <> ":"%char -> then_ (handles os a) (fun a' run => then_ (handle a' "?" None) (fun _ _ => False) run) run
    end.
  Lemma agrees_opt : forall pos c x q a (k : A -> outcome (A * gstate)), (forall b, agrees pos q b (k b)) ->
    agrees pos (add_opt (c, x) q) a (b <- handle a c x ;; k b).
  Proof.
    intros pos c x q a k H. destruct q as [os be st af|os c']; cbn [add_opt agrees handles] in *;
      destruct (handle a c x) as [b| | |]; cbn [bind then_]; auto.
  Qed.
  Lemma agrees_word : forall pos w q a run, agrees (pos ++ [w]) q a run -> agrees pos (add_word w q) a run.
  Proof.
    intros pos w q a run H. destruct q as [os be st af|os c']; cbn [add_word agrees] in *; auto.
    destruct (handles os a); cbn [then_] in *; auto. destruct H as (s' & E & F & HL). exists s'. split; auto.
    rewrite <- !app_assoc in *. split; [exact F|exact HL].
  Qed.
  Lemma split_words : forall l, words l \/ exists w e r, l = w ++ e :: r /\ words w /\ is_option e = true.
  Proof.
    induction l as [|x l IH]; [left; intros a []|].
    destruct (is_option x) eqn:X; [right; exists [], x, l; split; [auto|split; [intros a []|auto]]|].
    destruct IH as [W|(w & e & r & -> & W & E)]; [left|right; exists (x :: w), e, r; split; [auto|split; [|auto]]]; intros a [<-|I]; auto.
  Qed.
  Lemma scan_words : forall w l pos a run, posix = false -> words w -> agrees (pos ++ w) (scan posix plain valued l) a run -> agrees pos (scan posix plain valued (w ++ l)) a run.
  Proof.
    induction w as [|x w IH]; intros l pos a run PX W H; [rewrite app_nil_r in H; exact H|].
    cbn [app]. rewrite scan_cons. destruct (list_eq_dec ascii_dec x (lit "--")) as [->|NE].
    - specialize (W (lit "--") (or_introl eq_refl)). discriminate.
    - rewrite (W x (or_introl eq_refl)), PX. apply agrees_word. rewrite PX in IH.
      rewrite PX in H. apply (IH l (pos ++ [x]) a run); auto; [intros y I; apply W; right; auto|]. rewrite <- app_assoc. exact H.
  Qed.
  Lemma loop_ok : forall n rest, List.length rest <= n -> forall fuel s pos a, between s pos rest -> letters_in rest < fuel ->
    agrees pos (scan posix plain valued rest) a (loop fuel a s).
  Proof.
    induction n as [n IHn] using lt_wf_ind. intros rest LR fuel s pos a B FU.
    destruct fuel as [|fuel]; [lia|].
    (** the letters of one element *)
    assert (IN : forall cs r fuel s pos a, (List.length r < n)%nat -> inside s pos cs r -> List.length cs + letters_in r < fuel ->
              agrees pos (letters posix plain valued r cs) a (loop fuel a s)).
    { clear fuel s pos a B FU. induction cs as [|c cs IC]; intros r fuel s pos a LN I FU.
      { destruct I as (? & ? & ? & _ & _ & _ & _ & NE & _). congruence. }
      destruct (call_inside s pos c cs r I) as (K1 & K2 & K3). destruct fuel as [|fuel]; [lia|]. cbn [opt_loop letters].
      destruct (plain c) eqn:PL.
      - destruct (K1 eq_refl) as (s' & -> & OA & NX). cbn [bind fst snd]. rewrite OA. apply agrees_opt. intros b.
        destruct cs as [|c' cs].
        + cbn [letters]. apply (IHn (List.length r) LN r (le_n _)); auto. cbn [List.length] in FU. lia.
        + apply IC; auto. cbn [List.length] in *. lia.
      - destruct (valued c) eqn:VA.
        + specialize (K2 eq_refl eq_refl). destruct cs as [|c' cs].
          * destruct r as [|x r].
            -- destruct K2 as (s' & -> & OA). cbn [bind fst snd agrees handles then_]. rewrite OA. intros _.
               pose proof (HQ a) as Q. destruct (handle a "?" None); cbn [bind then_]; auto.
            -- destruct K2 as (s' & -> & OA & NX). cbn [bind fst snd]. rewrite OA. apply agrees_opt. intros b.
               cbn [List.length] in *. apply (IHn (List.length r)); auto; try lia. cbn [letters_in fold_right] in FU. unfold letters_in. lia.
          * destruct K2 as (s' & -> & OA & NX). cbn [bind fst snd]. rewrite OA. apply agrees_opt. intros b.
            apply (IHn (List.length r)); auto. cbn [List.length] in FU. lia.
        + cbn [agrees handles then_]. intros NC. destruct (K3 eq_refl eq_refl NC) as (s' & -> & OA). cbn [bind fst snd]. rewrite OA.
          pose proof (HQ a) as Q. destruct (handle a "?" None); cbn [bind then_]; auto. }
    destruct (split_words rest) as [W|(w & e & r & -> & W & HE)].
    - destruct (Bool.bool_dec posix true) as [PX|PX].
      + destruct rest as [|x r].
        * destruct (call_end s pos [] B W (fun _ => eq_refl)) as (s' & E & F & HL). cbn [opt_loop]. rewrite E. cbn [bind fst snd scan agrees handles then_].
          exists s'. split; auto.
        * pose proof B as (_ & _ & _ & _ & _ & PP & _). rewrite (PP PX) in *.
          destruct (call_posix s x r PX B (W x (or_introl eq_refl))) as (s' & E & F & HL). cbn [opt_loop]. rewrite E. rewrite scan_cons.
          destruct (list_eq_dec ascii_dec x (lit "--")) as [->|NE]; [specialize (W (lit "--") (or_introl eq_refl)); discriminate|].
          rewrite (W x (or_introl eq_refl)), PX. cbn [bind fst snd agrees handles then_]. exists s'. split; auto.
      + apply Bool.not_true_is_false in PX. destruct (call_end s pos rest B W ltac:(congruence)) as (s' & E & F & HL). cbn [opt_loop]. rewrite E.
        cbn [bind fst snd]. rewrite <- (app_nil_r rest) at 1. apply scan_words; auto. cbn [scan agrees handles then_].
        exists s'. split; auto. rewrite !app_nil_r. auto.
    - assert (LL : List.length r < n) by (rewrite app_length in LR; simpl in LR; lia).
      assert (LF : List.length (tl e) + letters_in r < S fuel).
      { unfold letters_in in *. rewrite fold_right_app in FU. cbn [fold_right] in FU.
        assert (M : forall l k, k <= fold_right (fun (a : str) n => List.length a + n) k l) by (induction l as [|x l IHl]; intros k; cbn [fold_right]; [lia|eapply Nat.le_trans; [apply (IHl k)|lia]]).
        specialize (M w (List.length e + fold_right (fun (a : str) n => List.length a + n) 0 r)). eapply Nat.le_lt_trans; [|exact FU]. eapply Nat.le_trans; [|exact M]. apply Nat.add_le_mono_r. destruct e; cbn [tl List.length]; lia. }
      destruct (Bool.bool_dec posix true) as [PX|PX].
      + destruct w as [|x w].
        * cbn [app] in *. rewrite scan_cons. destruct (list_eq_dec ascii_dec e (lit "--")) as [->|NE].
          -- destruct (call_mark s pos [] r B W (fun _ => eq_refl)) as (s' & E & F). cbn [opt_loop]. rewrite E. cbn [bind fst snd agrees handles then_].
             exists s'. split; auto. rewrite !app_nil_r in *. split; [|intros S; apply F; auto]. intros S. specialize (S eq_refl). rewrite S in *. apply F; auto.
          -- rewrite HE. destruct (call_letters s pos [] e r B W HE (fun _ => eq_refl) NE) as (s' & I & E). rewrite app_nil_r in I.
             assert (EL : loop (S fuel) a s = loop (S fuel) a s') by (cbn [opt_loop]; rewrite E; reflexivity). rewrite EL. apply IN; auto.
        * pose proof B as (_ & _ & _ & _ & _ & PP & _). rewrite (PP PX) in *.
          destruct (call_posix s x (w ++ e :: r) PX B (W x (or_introl eq_refl))) as (s' & E & F & HL). cbn [opt_loop app]. rewrite E. rewrite scan_cons.
          destruct (list_eq_dec ascii_dec x (lit "--")) as [->|NE]; [specialize (W (lit "--") (or_introl eq_refl)); discriminate|].
          rewrite (W x (or_introl eq_refl)), PX. cbn [bind fst snd agrees handles then_]. exists s'. split; auto.
      + apply Bool.not_true_is_false in PX. apply scan_words; auto. rewrite scan_cons.
        destruct (list_eq_dec ascii_dec e (lit "--")) as [->|NE].
        * destruct (call_mark s pos w r B W ltac:(congruence)) as (s' & E & F). cbn [opt_loop]. rewrite E. cbn [bind fst snd agrees handles then_].
          exists s'. split; auto. rewrite !app_nil_r. split; [|intros S; apply F; auto]. intros S. specialize (S eq_refl). rewrite S in *. apply F; auto.
        * rewrite HE. destruct (call_letters s pos w e r B W HE ltac:(congruence) NE) as (s' & I & E).
          assert (EL : loop (S fuel) a s = loop (S fuel) a s') by (cbn [opt_loop]; rewrite E; reflexivity). rewrite EL. apply IN; auto.
  Qed.

  (** From the reset on. *)
  Lemma opts_ok : forall prog args extra s a, argc = S (List.length args) -> L0 = prog :: args ++ extra ->
    agrees [] (scan posix plain valued args) a (loop (turns (prog :: args ++ extra)) a (reset (prog :: args ++ extra) s)).
  Proof.
    intros prog args extra s a AC HL.
    assert (E : forall l, call (reset (prog :: l) s) = call (G (prog :: l) 1 None 0 0 (optarg s))) by reflexivity.
    assert (EL : loop (turns (prog :: args ++ extra)) a (reset (prog :: args ++ extra) s) = loop (turns (prog :: args ++ extra)) a (G (prog :: args ++ extra) 1 None 0 0 (optarg s)))
      by (unfold turns; cbn [opt_loop]; rewrite E; reflexivity).
    rewrite EL. apply (loop_ok (List.length args)); auto.
    - exists [prog], [], extra. cbn [argv optind optnext gstart gend optarg List.length app]. split; [auto|]. split; [intros x []|].
      split; [auto|]. split; [auto|]. split; [lia|]. split; [auto|]. split; [left; auto|auto].
    - unfold turns, letters_in. cbn [fold_right]. rewrite fold_right_app.
      assert (M : forall l k, fold_right (fun (a : str) n => List.length a + n) 0 l <= fold_right (fun (a : str) n => List.length a + n) k l)
        by (induction l as [|x l IHl]; intros k; cbn [fold_right]; [lia|apply Nat.add_le_mono_l, IHl]).
      apply Nat.lt_succ_r. eapply Nat.le_trans; [apply M|apply Nat.le_add_l].
  Qed.
End Engine.
