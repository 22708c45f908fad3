(** C84: the command line.  C85: the arguments handed to the sampler. *)
From Coq Require Import ZArith List Ascii String Bool Arith Lia Reals DecimalString.
From Coq Require DecimalNat.
From Verif Require Import CPrelude CmdSpec GetoptModel GetoptProofs.
Import ListNotations.
Open Scope nat_scope.

(** ** What the claim says: the letters of mica2, README and docs/ *)
Definition one_of (s : string) (c : ascii) : bool := existsb (fun x => if ascii_dec x c then true else false) (str_of s).
(** the options as read from the line *)
Definition given (c : ascii) (opts : list (ascii * option word)) : bool := existsb (fun o => if ascii_dec (fst o) c then true else false) opts.
Fixpoint last_value (c : ascii) (opts : list (ascii * option word)) : option word :=
  match opts with
  | [] => None
  | (d, x) :: r => match last_value c r with Some v => Some v | None => if ascii_dec d c then x else None end
  end.
Definition line (posix : bool) (args : list word) : parsed := scan posix (one_of "pvrdens") (one_of "l") args.
(** the flags say which letters were given *)
Definition flags_mean (opts : list (ascii * option word)) (f : flags) : Prop :=
  postprc f = (given "p" opts || given "d" opts) /\ endrun f = given "v" opts /\ restart f = given "r" opts /\ decomp f = given "d" opts /\
  examine f = given "e" opts /\ load_prior f = given "l" opts /\ para_name f = given "n" opts /\ postsample f = given "s" opts /\
  prior_file f = last_value "l" opts.

(** ** Characters *)
Definition all_ascii : list ascii := map ascii_of_nat (seq 0 256).
Lemma all_ascii_ok : forall c, In c all_ascii.
Proof.
  intros c. apply in_map_iff. exists (nat_of_ascii c). split; [apply ascii_nat_embedding|].
  apply in_seq. pose proof (nat_ascii_bounded c). lia.
Qed.
Lemma every : forall (p : ascii -> bool), forallb p all_ascii = true -> forall c, p c = true.
Proof. intros p H c. rewrite forallb_forall in H. apply H, all_ascii_ok. Qed.
Definition colon_at (os : str) (k : nat) : bool := match nth_error os k with Some x => if ascii_dec x ":" then true else false | None => false end.
Lemma colon_yes : forall os k, colon_at os k = true -> nth_error os k = Some ":"%char.
Proof. intros os k. unfold colon_at. destruct (nth_error os k) as [x|]; [|discriminate]. destruct (ascii_dec x ":"); [subst; auto|discriminate]. Qed.
Lemma colon_no : forall os k, colon_at os k = false -> nth_error os k <> Some ":"%char.
Proof. intros os k. unfold colon_at. destruct (nth_error os k) as [x|]; [|discriminate]. destruct (ascii_dec x ":"); [discriminate|congruence]. Qed.
(** an option string describes the letters *)
Definition describes (os : str) (plain valued : ascii -> bool) (c : ascii) : bool :=
  if plain c then match strchr os c with Some r => negb (colon_at r 1) | None => false end
  else if valued c then match strchr os c with Some r => colon_at r 1 && negb (colon_at r 2) | None => false end
  else (if ascii_dec c ":" then true else match strchr os c with None => true | Some _ => false end).
Section Describes.
  Variable os : str.
  Variables plain valued : ascii -> bool.
  Hypothesis H : forallb (describes os plain valued) all_ascii = true.
  Lemma d_plain : forall c, plain c = true -> exists r, strchr os c = Some r /\ nth_error r 1 <> Some ":"%char.
  Proof.
    intros c P. pose proof (every _ H c) as E. unfold describes in E. rewrite P in E. destruct (strchr os c) as [r|]; [|discriminate].
    exists r. split; auto. apply colon_no. destruct (colon_at r 1); [discriminate|auto].
  Qed.
  Lemma d_valued : forall c, plain c = false -> valued c = true ->
    exists r, strchr os c = Some r /\ nth_error r 1 = Some ":"%char /\ nth_error r 2 <> Some ":"%char.
  Proof.
    intros c P V. pose proof (every _ H c) as E. unfold describes in E. rewrite P, V in E. destruct (strchr os c) as [r|]; [|discriminate].
    apply andb_true_iff in E. destruct E as [E1 E2]. exists r. split; auto. split; [apply colon_yes; auto|]. apply colon_no. destruct (colon_at r 2); [discriminate|auto].
  Qed.
  Lemma d_none : forall c, plain c = false -> valued c = false -> c <> ":"%char -> strchr os c = None.
  Proof.
    intros c P V N. pose proof (every _ H c) as E. unfold describes in E. rewrite P, V in E. destruct (ascii_dec c ":"); [congruence|].
    destruct (strchr os c); [discriminate|auto].
  Qed.
End Describes.

(** ** What the scan gives *)
Section Good.
  Variable posix : bool.
  Variables plain valued : ascii -> bool.
  Variable N : nat.
  Definition ok_opt (o : ascii * option word) : Prop :=
    (plain (fst o) = true /\ snd o = None) \/ (plain (fst o) = false /\ valued (fst o) = true /\ exists v, snd o = Some v /\ List.length v < N).
  Definition good (q : parsed) : Prop :=
    match q with
    | Parsed os b t a => List.Forall ok_opt os /\ List.Forall (fun w => List.length w < N) (b ++ a)
    | Rejected os _ => List.Forall ok_opt os
    end.
  Lemma good_opt : forall o q, ok_opt o -> good q -> good (add_opt o q).
  Proof. intros o [os b t a|os c] O; cbn; [intros [A B]; split; auto|auto]. Qed.
  Lemma good_word : forall w q, List.length w < N -> good q -> good (add_word w q).
  Proof. intros w [os b t a|os c] O; cbn; [intros [A B]; split; auto|auto]. Qed.
  Lemma scan_good : forall n args, List.length args <= n -> List.Forall (fun w => List.length w < N) args -> good (scan posix plain valued args).
  Proof.
    induction n as [n IHn] using lt_wf_ind. intros [|a r] L F; [split; constructor|].
    inversion F as [|? ? FA FR]; subst. rewrite scan_cons.
    destruct (list_eq_dec ascii_dec a (lit "--")); [split; [constructor|auto]|].
    destruct (is_option a).
    - assert (K : forall cs, List.length cs < N -> good (letters posix plain valued r cs)).
      { cbn [List.length] in L. induction cs as [|c cs IC]; intros LC; cbn [letters].
        - apply (IHn (List.length r)); auto.
        - cbn [List.length] in LC. destruct (plain c) eqn:P.
          + apply good_opt; [left; auto|apply IC; lia].
          + destruct (valued c) eqn:V; [|constructor]. destruct cs as [|d cs].
            * destruct r as [|x r]; [constructor|]. inversion FR; subst. apply good_opt; [right; cbn; eauto|]. cbn [List.length] in L. apply (IHn (List.length r)); auto; lia.
            * apply good_opt; [right; cbn [fst snd]; split; auto; split; auto; exists (d :: cs); split; auto; lia|]. apply (IHn (List.length r)); auto. }
      apply K. destruct a; cbn [tl List.length] in *; lia.
    - destruct posix; [split; [constructor|cbn; auto]|]. apply good_word; auto. cbn [List.length] in L. apply (IHn (List.length r)); auto.
  Qed.
End Good.

(** ** The switch of main *)
Lemma main_describes : forallb (describes main_options (one_of "pvrdens") (one_of "l")) all_ascii = true.
Proof. vm_compute. reflexivity. Qed.
Definition upd (f : flags) (opts : list (ascii * option word)) (g : flags) : Prop :=
  postprc g = (postprc f || (given "p" opts || given "d" opts)) /\ endrun g = (endrun f || given "v" opts) /\ restart g = (restart f || given "r" opts) /\
  decomp g = (decomp f || given "d" opts) /\ examine g = (examine f || given "e" opts) /\ load_prior g = (load_prior f || given "l" opts) /\
  para_name g = (para_name f || given "n" opts) /\ postsample g = (postsample f || given "s" opts) /\
  prior_file g = match last_value "l" opts with Some v => Some v | None => prior_file f end.
Ltac run_switch :=
  match goal with |- context [main_switch ?f ?c None] =>
    let g := eval lazy [main_switch ascii_dec ascii_rec ascii_rect bool_dec bool_rec bool_rect sumbool_rec sumbool_rect eq_rec_r eq_rec eq_rect eq_sym] in (main_switch f c None) in
    change (main_switch f c None) with g end; cbn [bind].
Ltac use_rest IH F' opts :=
  match goal with |- context [handles main_switch opts ?g] => destruct (IH g F') as (? & -> & (? & ? & ? & ? & ? & ? & ? & ? & ?)) end;
  eexists; (split; [reflexivity|]); unfold upd in *; cbn [postprc endrun restart decomp examine load_prior para_name postsample prior_file] in *; cbn [given existsb fst last_value];
  repeat (match goal with |- context [if ascii_dec ?a ?b then _ else _] =>
    let g := eval lazy in (if ascii_dec a b then true else false) in
    first [change (if ascii_dec a b then true else false) with g | destruct (ascii_dec a b); [try discriminate|try congruence]] end);
  unfold given in *; 
  repeat match goal with E : _ = (_ || _) |- _ => rewrite E; clear E | E : prior_file _ = _ |- _ => rewrite E; clear E end;
  repeat split; try reflexivity; try (destruct (last_value "l" opts); reflexivity);
  cbn [orb]; rewrite ?orb_true_r, ?orb_false_r; try reflexivity;
  repeat match goal with |- context [existsb ?h opts] => destruct (existsb h opts) end;
  cbn [orb]; rewrite ?orb_true_r, ?orb_false_r; reflexivity.
Lemma main_handles : forall opts f, List.Forall (ok_opt (one_of "pvrdens") (one_of "l") 256) opts -> exists g, handles main_switch opts f = Ok g /\ upd f opts g.
Proof.
  induction opts as [|[c x] opts IH]; intros f F.
  - exists f. split; [reflexivity|]. unfold upd. cbn [given existsb last_value orb]. rewrite !orb_false_r. repeat split.
  - inversion F as [|? ? O F']; subst. cbn [handles]. destruct O as [[P X]|(P & V & v & X & LV)]; cbn [fst snd] in *; subst x.
    + assert (CS : In c (str_of "pvrdens")).
      { unfold one_of in P. apply existsb_exists in P. destruct P as (y & I & E). destruct (ascii_dec y c); [subst; auto|discriminate]. }
      cbn in CS. destruct CS as [<-|[<-|[<-|[<-|[<-|[<-|[<-|[]]]]]]]]; run_switch; use_rest IH F' opts.
    + assert (CS : In c (str_of "l")).
      { unfold one_of in V. apply existsb_exists in V. destruct V as (y & I & E). destruct (ascii_dec y c); [subst; auto|discriminate]. }
      cbn in CS. destruct CS as [<-|[]].
      assert (SC : strcpy MICA_MAX_STR_LENGTH v = Ok v) by (unfold strcpy; replace (List.length v <? MICA_MAX_STR_LENGTH) with true by (symmetry; apply Nat.ltb_lt; exact LV); auto).
      change (main_switch f "l" (Some v)) with (p <- strcpy MICA_MAX_STR_LENGTH v ;;
        Ok (Flags (postprc f) (endrun f) (restart f) (decomp f) (examine f) true (para_name f) (postsample f) (Some p))).
      rewrite SC. cbn [bind]. use_rest IH F' opts.
Qed.
Lemma main_loop : forall posix prog args s,
  agrees (List.length (prog :: args)) main_switch (prog :: args) [] (line posix args) no_flags
    (opt_loop posix (List.length (prog :: args)) main_options main_switch (turns (prog :: args)) no_flags (reset (prog :: args) s)).
Proof.
  intros posix prog args s. pose proof main_describes as D.
  pose proof (opts_ok (A := flags) posix (List.length (prog :: args)) main_options (one_of "pvrdens") (one_of "l")
    (d_plain _ _ _ D) (d_valued _ _ _ D) (d_none _ _ _ D)) as K.
  specialize (K ltac:(cbn; discriminate) main_switch ltac:(intros a; exact I) (prog :: args) prog args [] s no_flags eq_refl).
  rewrite app_nil_r in K. exact (K eq_refl).
Qed.

(** ** C84.  For every line of arguments of less than 256 characters, in any order of
    options and names: without a name the program stops; otherwise the flags say which
    letters occur in the line, the prior file is the last one given, and the names are,
    in order, the parameter file and the two option files.  [stopped -> before = []]: no
    name stands in front of a "--". *)
Theorem C84_command_line : forall posix prog args s opts before stopped after,
  (forall a, In a args -> List.length a < 256) ->
  line posix args = Parsed opts before stopped after -> (stopped = true -> before = []) ->
  match before ++ after with
  | [] => main_args posix (prog :: args) s = Exit
  | p :: r => exists f, main_args posix (prog :: args) s = Ok (Command f p (nth 0 r []) (nth 1 r [])) /\ flags_mean opts f
  end.
Proof.
  intros posix prog args s opts be st af LA E ST.
  pose proof (main_loop posix prog args s) as M.
  assert (GD : good (one_of "pvrdens") (one_of "l") 256 (line posix args)).
  { apply (scan_good _ _ _ _ (List.length args)); auto. apply List.Forall_forall. auto. }
  rewrite E in M, GD. destruct GD as [GO GW]. cbn [agrees] in M.
  destruct (main_handles opts no_flags GO) as (f & HH & U). rewrite HH in M. cbn [then_] in M. destruct M as (s' & R & FN & _).
  assert (FM : flags_mean opts f).
  { destruct U as (U1 & U2 & U3 & U4 & U5 & U6 & U7 & U8 & U9). cbn [no_flags postprc endrun restart decomp examine load_prior para_name postsample prior_file orb] in *.
    repeat split; auto. rewrite U9. destruct (last_value "l" opts); auto. }
  specialize (FN ST). destruct FN as (p & extra & AV & OI & AC). cbn [app] in AV, AC.
  unfold main_args. cbv zeta. rewrite R. cbn [bind].
  assert (FILE : forall k, (if optind s' + k <? List.length (prog :: args) then a <- get (argv s') (optind s' + k) ;; strcpy MICA_MAX_STR_LENGTH a else Ok []) = Ok (nth k (be ++ af) [])).
  { intros k. rewrite OI, AC. destruct (Nat.ltb_spec (List.length p + k) (List.length p + List.length (be ++ af))) as [L|L].
    - assert (LK : k < List.length (be ++ af)) by lia. rewrite AV. unfold get. rewrite nth_error_app2 by lia. replace (List.length p + k - List.length p) with k by lia.
      rewrite nth_error_app1 by exact LK. rewrite (nth_error_nth' _ [] LK). cbn [bind]. unfold strcpy.
      replace (List.length (nth k (be ++ af) []) <? MICA_MAX_STR_LENGTH) with true; auto. symmetry. apply Nat.ltb_lt.
      rewrite List.Forall_forall in GW. apply GW, nth_In. exact LK.
    - rewrite nth_overflow by lia. reflexivity. }
  rewrite !FILE. rewrite OI, AC. destruct (be ++ af) as [|x r].
  - cbn [List.length]. rewrite Nat.add_0_r, Nat.ltb_irrefl. reflexivity.
  - replace (List.length p <? List.length p + List.length (x :: r)) with true by (symmetry; apply Nat.ltb_lt; simpl; lia).
    cbn [bind nth]. exists f. split; auto.
Qed.
Print Assumptions C84_command_line.

(** docs/resume.rst and the usual forms: "mica2 param -r", and two options in one word,
    a value in the same word, all three files, and the end mark. *)
Example C84_example :
  line false [str_of "p/param"; str_of "-r"; str_of "opt1"; str_of "-dllow"; str_of "--"] = Parsed [("r"%char, None); ("d"%char, None); ("l"%char, Some (str_of "low"))] [str_of "p/param"; str_of "opt1"] true [] /\
  line false [str_of "p/param"; str_of "-dr"; str_of "opt1"; str_of "-l"; str_of "low"; str_of "-"] =
    Parsed [("d"%char, None); ("r"%char, None); ("l"%char, Some (str_of "low"))] [str_of "p/param"; str_of "opt1"; str_of "-"] false [] /\
  main_args false (str_of "mica2" :: [str_of "p/param"; str_of "-dr"; str_of "opt1"; str_of "-l"; str_of "low"; str_of "-"]) (G [] 0 None 0 0 None) =
    Ok (Command (Flags true false true true false true false false (Some (str_of "low"))) (str_of "p/param") (str_of "opt1") (str_of "-")) /\
  main_args false [str_of "mica2"; str_of "-v"] (G [] 0 None 0 0 None) = Exit.
Proof. vm_compute. repeat split. Qed.

(** ** The claims that fail.  After "--" the names are what the comment in
    src/mygetopt.c:111-113 says ("The special argument `--' forces an end of option-scanning"),
    but names in front of it are lost. *)
Theorem C84_double_dash_refuted : exists args opts before after, line false args = Parsed opts before true after /\ before <> [] /\
  forall prog s, main_args false (prog :: args) s = Exit.
Proof.
  exists [str_of "param"; str_of "--"], [], [str_of "param"], []. split; [reflexivity|]. split; [discriminate|].
  intros prog s. unfold main_args, reset, turns. destruct s as [l i n st en oa]. cbn [argv optind optnext gstart gend optarg].
  cbn [fold_right]. rewrite Nat.add_comm. reflexivity.
Qed.
Print Assumptions C84_double_dash_refuted.
(** The colon of the option string is taken for an option. *)
Theorem C84_colon_refuted : exists args, line false args = Rejected [] ":" /\
  forall prog s, exists c, main_args false (prog :: args) s = Ok c.
Proof.
  exists [str_of "-:"; str_of "param"]. split; [reflexivity|].
  intros prog s. eexists. unfold main_args, reset, turns. destruct s as [l i n st en oa]. cbn [argv optind optnext gstart gend optarg].
  cbn [fold_right]. rewrite Nat.add_comm. reflexivity.
Qed.
Print Assumptions C84_colon_refuted.
(** A letter that is no option, or -l without a file, is to be reported (src/main.c:93-95);
    the report hands a null pointer to printf, for every such line. *)
Theorem C84_report_undefined : forall posix prog args s opts c,
  (forall a, In a args -> List.length a < 256) ->
  line posix args = Rejected opts c -> c <> ":"%char -> main_args posix (prog :: args) s = UB.
Proof.
  intros posix prog args s opts c LA E NC.
  pose proof (main_loop posix prog args s) as M.
  assert (GD : good (one_of "pvrdens") (one_of "l") 256 (line posix args)).
  { apply (scan_good _ _ _ _ (List.length args)); auto. apply List.Forall_forall. auto. }
  rewrite E in M, GD. cbn [agrees] in M. specialize (M NC). destruct (main_handles opts no_flags GD) as (f & HH & _). rewrite HH in M. cbn [then_] in M.
  unfold main_args. cbv zeta. change (main_switch f "?" None) with (@UB flags) in M. cbn [then_] in M. rewrite M. reflexivity.
Qed.
Print Assumptions C84_report_undefined.
Example C84_report_example : line false [str_of "param"; str_of "-pl"] = Rejected [("p"%char, None)] "l" /\ line false [str_of "-z"; str_of "param"] = Rejected [] "z".
Proof. split; reflexivity. Qed.
Theorem C84_report_refuted : exists args opts c, (forall a, In a args -> List.length a < 256) /\ line false args = Rejected opts c /\
  forall prog s, main_args false (prog :: args) s = UB.
Proof.
  exists [str_of "param"; str_of "-pl"], [("p"%char, None)], "l"%char.
  assert (LA : forall a, In a [str_of "param"; str_of "-pl"] -> List.length a < 256) by (intros a [<-|[<-|[]]]; cbn; lia).
  split; [exact LA|]. split; [reflexivity|]. intros prog s.
  apply (C84_report_undefined false prog _ s [("p"%char, None)] "l"%char LA); [reflexivity|discriminate].
Qed.
Print Assumptions C84_report_refuted.

(** ** C85.  What the sampler is told.  The number of components in decimal: *)
Definition number (k : nat) : word := str_of (NilZero.string_of_uint (Nat.to_uint k)).
(** what a run should be given: the flags of the command line, its own file, the ending of
    the names of its output files and the tag of its option file *)
Definition told (restart postprc : bool) (file : word) (old : option word) (ending tag : word) : dargs :=
  Dargs restart postprc false true file (if restart then Some file else old) ending tag.

Lemma dnest_describes : forallb (describes dnest_options (one_of "pcl") (one_of "rstxgm")) all_ascii = true.
Proof. vm_compute. reflexivity. Qed.
Lemma skipn_skipn' : forall {A} n m (l : list A), skipn n (skipn m l) = skipn (m + n) l.
Proof. intros A n m. induction m as [|m IH]; intros [|x l]; cbn [skipn Nat.add]; auto. apply skipn_nil. Qed.
Section Sampler.
  Variable atof : str -> R.
  Lemma dnest_loop : forall posix prog args extra old s,
    agrees (S (List.length args)) (dnest_switch atof) (prog :: args ++ extra) [] (scan posix (one_of "pcl") (one_of "rstxgm") args)
      (Dargs false false false false (lit "restart_dnest.txt") old [] [])
      (dnest_args atof posix (S (List.length args)) (prog :: args ++ extra) old s).
  Proof.
    intros posix prog args extra old s. pose proof dnest_describes as D.
    pose proof (opts_ok (A := dargs) posix (S (List.length args)) dnest_options (one_of "pcl") (one_of "rstxgm")
      (d_plain _ _ _ D) (d_valued _ _ _ D) (d_none _ _ _ D)) as K.
    specialize (K ltac:(cbn; discriminate) (dnest_switch atof) ltac:(intros a; exact I) (prog :: args ++ extra) prog args extra s (Dargs false false false false (lit "restart_dnest.txt") old [] [])).
    exact (K eq_refl eq_refl).
  Qed.
  (** when the scan gives options only *)
  Lemma dnest_ok : forall posix prog args extra old s opts d,
    scan posix (one_of "pcl") (one_of "rstxgm") args = Parsed opts [] false [] ->
    handles (dnest_switch atof) opts (Dargs false false false false (lit "restart_dnest.txt") old [] []) = Ok d ->
    exists s', dnest_args atof posix (S (List.length args)) (prog :: args ++ extra) old s = Ok (d, s') /\ argv s' = prog :: args ++ extra.
  Proof.
    intros posix prog args extra old s opts d SC HH. pose proof (dnest_loop posix prog args extra old s) as K. rewrite SC in K. cbn [agrees] in K.
    rewrite HH in K. cbn [then_] in K. destruct K as (s' & E & _ & AV). exists s'. split; auto.
  Qed.
  Lemma dnest_ub : forall posix prog args extra old s opts,
    scan posix (one_of "pcl") (one_of "rstxgm") args = Parsed opts [] false [] ->
    handles (dnest_switch atof) opts (Dargs false false false false (lit "restart_dnest.txt") old [] []) = UB ->
    dnest_args atof posix (S (List.length args)) (prog :: args ++ extra) old s = UB.
  Proof.
    intros posix prog args extra old s opts SC HH. pose proof (dnest_loop posix prog args extra old s) as K. rewrite SC in K. cbn [agrees] in K.
    rewrite HH in K. exact K.
  Qed.

  Lemma strcpy_ok : forall n v, List.length v < n -> strcpy n v = Ok v.
  Proof. intros n v L. unfold strcpy. apply Nat.ltb_lt in L. rewrite L. reflexivity. Qed.
  Lemma writes_ok : forall a l i, List.Forall (fun x => List.length x < 256) a -> i + List.length a <= List.length l ->
    writes l i a = Ok (firstn i l ++ a ++ skipn (i + List.length a) l).
  Proof.
    induction a as [|x a IH]; intros l i F L; cbn [writes List.length app].
    - rewrite Nat.add_0_r, firstn_skipn. reflexivity.
    - inversion F as [|? ? FX FA]; subst. cbn [List.length] in L. unfold write. rewrite strcpy_ok by exact FX. cbn [bind].
      assert (SP : l = firstn i l ++ nth i l [] :: skipn (i + 1) l).
      { rewrite <- (firstn_skipn i l) at 1. f_equal. rewrite <- (firstn_skipn i l) at 2. rewrite app_nth2; rewrite firstn_length; [|lia].
        replace (i - Nat.min i (List.length l)) with 0 by lia. replace (i + 1) with (S i) by lia.
        clear - L. revert l L. induction i as [|i IHi]; intros [|y l] L; cbn [List.length skipn nth] in *; try lia; [reflexivity|]. rewrite IHi; [reflexivity|lia]. }
      assert (LI : List.length (firstn i l) = i) by (rewrite firstn_length; lia).
      assert (PU : put l i x = Ok (firstn i l ++ x :: skipn (i + 1) l)).
      { pose proof (put_app (firstn i l) (nth i l []) x (skipn (i + 1) l)) as P. rewrite LI, <- SP in P. exact P. }
      rewrite PU. cbn [bind]. rewrite IH by (auto; rewrite app_length, LI; cbn [List.length]; rewrite skipn_length; lia).
      f_equal. replace (firstn (i + 1) (firstn i l ++ x :: skipn (i + 1) l)) with (firstn i l ++ [x]).
      2: { rewrite firstn_app, LI. replace (i + 1 - i) with 1 by lia. rewrite (firstn_all2 (n := i + 1) (firstn i l)) by lia. reflexivity. }
      rewrite <- app_assoc. cbn [app]. do 3 f_equal.
      rewrite skipn_app, LI. rewrite (skipn_all2 (firstn i l)) by lia. cbn [app].
      replace (i + 1 + List.length a - i) with (S (List.length a)) by lia. cbn [skipn]. rewrite skipn_skipn'.
      f_equal. lia.
  Qed.
End Sampler.


(** the options the drivers use *)
Definition apply_opt (d : dargs) (o : ascii * option str) : dargs :=
  let v := match snd o with Some v => v | None => [] end in
  if ascii_dec (fst o) "s" then Dargs (d_restart d) (d_postprc d) (d_info d) (d_limits d) v (d_file d) (d_postfix d) (d_tag d)
  else if ascii_dec (fst o) "x" then Dargs (d_restart d) (d_postprc d) (d_info d) (d_limits d) (d_save d) (d_file d) v (d_tag d)
  else if ascii_dec (fst o) "r" then Dargs true (d_postprc d) (d_info d) (d_limits d) (d_save d) (Some v) (d_postfix d) (d_tag d)
  else if ascii_dec (fst o) "g" then Dargs (d_restart d) (d_postprc d) (d_info d) (d_limits d) (d_save d) (d_file d) (d_postfix d) v
  else if ascii_dec (fst o) "l" then Dargs (d_restart d) (d_postprc d) (d_info d) true (d_save d) (d_file d) (d_postfix d) (d_tag d)
  else Dargs (d_restart d) true (d_info d) (d_limits d) (d_save d) (d_file d) (d_postfix d) (d_tag d).
Definition valid_opt (o : ascii * option str) : Prop :=
  match snd o with
  | None => one_of "lp" (fst o) = true
  | Some v => one_of "sxrg" (fst o) = true /\ List.length v < 156
  end.
Lemma one_of_in : forall s c, one_of s c = true -> In c (str_of s).
Proof. intros s c V. unfold one_of in V. apply existsb_exists in V. destruct V as (y & I & E). destruct (ascii_dec y c); [subst; auto|discriminate]. Qed.
Lemma handles_told : forall atof opts d, List.Forall valid_opt opts -> handles (dnest_switch atof) opts d = Ok (fold_left apply_opt opts d).
Proof.
  intros atof. induction opts as [|[o x] opts IH]; intros d F; [reflexivity|]. inversion F as [|? ? V F']; subst. cbn [handles fold_left].
  assert (E : dnest_switch atof d o x = Ok (apply_opt d (o, x))); [|rewrite E; cbn [bind]; apply IH; auto].
  unfold valid_opt in V. cbn [fst snd] in V. destruct x as [v|].
  - destruct V as [I L]. apply one_of_in in I. pose proof (strcpy_ok STR_MAX_LENGTH v L) as SV. cbn in I.
    destruct I as [<-|[<-|[<-|[<-|[]]]]]; unfold dnest_switch, apply_opt, deref; cbn [fst snd ascii_dec]; lazy [ascii_dec ascii_rec ascii_rect bool_dec bool_rec bool_rect sumbool_rec sumbool_rect eq_rec_r eq_rec eq_rect eq_sym bind] in *; rewrite SV; reflexivity.
  - apply one_of_in in V. cbn in V. destruct V as [<-|[<-|[]]]; reflexivity.
Qed.
Lemma dnest_told : forall atof posix args extra old s opts,
  scan posix (one_of "pcl") (one_of "rstxgm") args = Parsed opts [] false [] -> List.Forall valid_opt opts ->
  exists s', dnest_args atof posix (S (List.length args)) (lit "dnest" :: args ++ extra) old s =
    Ok (fold_left apply_opt opts (Dargs false false false false (lit "restart_dnest.txt") old [] []), s') /\ argv s' = lit "dnest" :: args ++ extra.
Proof. intros atof posix args extra old s opts SC V. apply (dnest_ok atof posix (lit "dnest") args extra old s opts); auto. apply handles_told; auto. Qed.
(** the array of one driver between two runs *)
Definition line_shape (pp : bool) (l : list str) : Prop :=
  exists j r, l = [lit "dnest"; lit "-s"; j; lit "-l"] ++ (if pp then [lit "-p"] else []) ++ [lit "-g"; lit "1d"] ++ r /\ List.length r = if pp then 4 else 5.
Ltac short := repeat (apply List.Forall_cons; [cbn [List.length lit list_ascii_of_string]; lia|]); apply List.Forall_nil.
Definition line_file (dir : word) (k : nat) : word := dir ++ str_of "/data/restart_dnest1d.txt_" ++ number k.
Lemma line_run : forall atof posix dir rs pp k l old s, line_shape pp l -> List.length dir + 26 + List.length (number k) < 156 ->
  exists al s', mc_line_run dir rs (if pp then 7 else 6) l k = Ok al /\
    dnest_args atof posix (fst al) (snd al) old s = Ok (told rs pp (line_file dir k) old (str_of "_" ++ number k) (str_of "1d"), s') /\ line_shape pp (argv s').
Proof.
  intros atof posix dir rs pp k l old s (j & r & -> & LR) LD.
  assert (EX : postfix k = str_of "_" ++ number k) by reflexivity.
  assert (EF : dir ++ lit "/data/restart_dnest1d.txt" ++ postfix k = line_file dir k) by (unfold line_file; rewrite EX; reflexivity).
  assert (LX : List.length (postfix k) < 156) by (rewrite EX, app_length; cbn [List.length str_of list_ascii_of_string]; lia).
  assert (LF : List.length (line_file dir k) < 156) by (unfold line_file; rewrite !app_length; cbn [List.length str_of list_ascii_of_string]; lia).
  unfold mc_line_run. rewrite EF. rewrite <- EX. generalize dependent (line_file dir k). generalize dependent (postfix k). clear - LR. intros X _ LX F _ LF.
  assert (W2 : forall l, 2 + 1 <= List.length l -> write l 2 F = Ok (firstn 2 l ++ F :: skipn 3 l)).
  { intros l LL. pose proof (writes_ok [F] l 2) as W. cbn [writes List.length app Nat.add] in W. rewrite <- W; [destruct (write l 2 F); reflexivity|short|lia]. }
  destruct pp; destruct r as [|r0 [|r1 [|r2 [|r3 [|r4 [|? ?]]]]]]; try discriminate LR; cbn [app]; rewrite writes_ok by first [short|cbn; lia];
    cbn [firstn skipn app Nat.add List.length bind]; rewrite W2 by (cbn; lia); cbn [firstn skipn app bind]; destruct rs;
    try (rewrite writes_ok by first [short|cbn; lia]; cbn [firstn skipn app Nat.add List.length bind]).
  all: match goal with |- context [Ok (?n, ?l)] =>
    let args := eval cbn [tl firstn Nat.sub] in (tl (firstn n l)) in let extra := eval cbn [skipn] in (skipn n l) in
    let q := eval lazy in (scan posix (one_of "pcl") (one_of "rstxgm") args) in
    match q with Parsed ?opts _ _ _ =>
    destruct (dnest_told atof posix args extra old s opts) as (s' & E & AV) end;
      [reflexivity
      |repeat (apply List.Forall_cons; [cbn [valid_opt fst snd]; first [split; [reflexivity|auto; cbn; lia]|reflexivity]|]); apply List.Forall_nil|];
    exists (n, l), s'; split; [reflexivity|]; split; [exact E|]; rewrite AV end.
  - exists F, [lit "-x"; X; lit "-r"; F]. split; reflexivity.
  - exists F, [lit "-x"; X; r2; r3]. split; reflexivity.
  - exists F, [lit "-x"; X; lit "-r"; F; r4]. split; reflexivity.
  - exists F, [lit "-x"; X; r2; r3; r4]. split; reflexivity.
Qed.

(** The driver of the general mode, for every range of numbers of components, whatever the
    new array, the sampler and my_getopt held before, and whatever atof does: no write or
    read leaves the array of eleven, and each run is told the flags of the command line,
    its own snapshot file, its own ending and the tag 1d. *)
Theorem C85_general : forall atof posix dir rs pp ks junk old s,
  List.length junk = 11 -> (forall k, In k ks -> List.length dir + 26 + List.length (number k) < 156) ->
  (al <- mc_line_argv junk pp ;; mc_runs atof (fun l k => mc_line_run dir rs (fst al) l k) posix ks (snd al) old s) =
  Ok (map (fun k => told rs pp (line_file dir k) old (str_of "_" ++ number k) (str_of "1d")) ks).
Proof.
  intros atof posix dir rs pp ks junk old s LJ LK.
  assert (A : exists l, mc_line_argv junk pp = Ok (if pp then 7 else 6, l) /\ line_shape pp l).
  { destruct junk as [|j0 [|j1 [|j2 [|j3 [|j4 [|j5 [|j6 [|j7 [|j8 [|j9 [|j10 [|? ?]]]]]]]]]]]]; try discriminate LJ.
    unfold mc_line_argv. destruct pp; cbn [firstn app];
      rewrite writes_ok by first [short|cbn; lia]; cbn [firstn skipn app Nat.add List.length bind];
      rewrite writes_ok by first [short|cbn; lia]; cbn [firstn skipn app Nat.add List.length bind];
      eexists; (split; [reflexivity|]); [exists j2, [j7; j8; j9; j10]|exists j2, [j6; j7; j8; j9; j10]]; split; reflexivity. }
  destruct A as (l & -> & SH). cbn [bind fst snd].
  revert l old s SH. induction ks as [|k ks IH]; intros l old s SH; [reflexivity|]. cbn [mc_runs map].
  destruct (line_run atof posix dir rs pp k l old s SH (LK k (or_introl eq_refl))) as (al & s' & E1 & E2 & SH'). rewrite E1. cbn [bind]. rewrite E2. cbn [bind].
  rewrite (IH (fun k' I => LK k' (or_intror I)) (argv s') _ s' SH'). cbn [bind]. do 2 f_equal.
  apply map_ext. intros k'. unfold told. destruct rs; reflexivity.
Qed.
Print Assumptions C85_general.
Example C85_general_example : forall atof,
  (al <- mc_line_argv (repeat (str_of "?") 11) false ;; mc_runs atof (fun l k => mc_line_run (str_of ".") true (fst al) l k) false [1; 12] (snd al) None (G [] 0 None 0 0 None)) =
  Ok [Dargs true false false true (str_of "./data/restart_dnest1d.txt_1") (Some (str_of "./data/restart_dnest1d.txt_1")) (str_of "_1") (str_of "1d");
      Dargs true false false true (str_of "./data/restart_dnest1d.txt_12") (Some (str_of "./data/restart_dnest1d.txt_12")) (str_of "_12") (str_of "1d")].
Proof. intros atof. rewrite C85_general; [reflexivity|reflexivity|]. intros k [<-|[<-|[]]]; cbn; lia. Qed.

(** *** The snapshots of different runs have different names, and no snapshot has the name
    a restart reads (docs/resume.rst: the user renames the snapshot they want). *)
Definition is_digit (c : ascii) : bool := one_of "0123456789" c.
Lemma uint_digits : forall u, forallb is_digit (list_ascii_of_string (NilEmpty.string_of_uint u)) = true.
Proof. induction u; cbn; auto. Qed.
Lemma number_digits : forall k, forallb is_digit (number k) = true.
Proof. intros k. unfold number, NilZero.string_of_uint. destruct (Nat.to_uint k) eqn:E; [reflexivity|..]; rewrite <- E; apply uint_digits. Qed.
Lemma number_inj : forall k n, number k = number n -> k = n.
Proof.
  intros k n E. unfold number, str_of in E.
  apply (f_equal string_of_list_ascii) in E. rewrite !string_of_list_ascii_of_string in E.
  pose proof (NilZero.usu (Nat.to_uint k)) as A. pose proof (NilZero.usu (Nat.to_uint n)) as B. rewrite E in A.
  assert (ZK : forall m, Nat.to_uint m <> Decimal.Nil).
  { intros m H. pose proof (DecimalNat.Unsigned.of_to m) as O. rewrite H in O. cbn in O. subst m. discriminate H. }
  rewrite A in B by apply ZK. specialize (B (ZK n)). injection B as B.
  apply DecimalNat.Unsigned.to_uint_inj. auto.
Qed.
Lemma digits_underscore : forall a b x y, forallb is_digit a = true -> forallb is_digit b = true ->
  a ++ "_"%char :: x = b ++ "_"%char :: y -> a = b.
Proof.
  induction a as [|c a IH]; intros [|d b] x y A B E; cbn [forallb app] in *; auto.
  - injection E as <- _. discriminate B.
  - injection E as -> _. discriminate A.
  - injection E as -> E. apply andb_true_iff in A, B. f_equal. apply (IH b x y); tauto.
Qed.
Theorem C85_snapshots : forall rs pp dir old k k' n n' tag a b,
  snapshot_name (told rs pp (line_file dir k) old (str_of "_" ++ number k) tag) n = Ok a ->
  snapshot_name (told rs pp (line_file dir k') old (str_of "_" ++ number k') tag) n' = Ok b ->
  (a = b -> k = k' /\ n = n') /\ Some a <> restart_name (told true pp (line_file dir k') old (str_of "_" ++ number k') tag).
Proof.
  intros rs pp dir old k k' n n' tag a b A B.
  assert (SN : forall d m r, snapshot_name d m = Ok r -> r = d_save d ++ str_of "_" ++ number m).
  { intros d m r H. unfold snapshot_name, strcpy in H. destruct (_ <? _); [|discriminate]. injection H as <-. reflexivity. }
  apply SN in A, B. cbn [told d_save] in A, B. unfold line_file in A, B. rewrite <- !app_assoc in A, B. split.
  - intros E. rewrite A, B in E. apply app_inv_head, app_inv_head in E.
    assert (K : number k = number k') by (eapply digits_underscore; [apply number_digits|apply number_digits|exact E]).
    rewrite K in E. apply app_inv_head, app_inv_head in E. split; apply number_inj; auto.
  - cbn [restart_name told d_restart d_file]. intros E. injection E as E. rewrite A in E. unfold line_file in E. apply app_inv_head, app_inv_head in E.
    pose proof (number_digits k') as D. rewrite <- E, !forallb_app in D. apply andb_true_iff in D. destruct D as [_ D]. discriminate D.
Qed.
Print Assumptions C85_snapshots.
Example C85_snapshots_example :
  snapshot_name (told true false (line_file (str_of ".") 1) None (str_of "_1") (str_of "1d")) 21 = Ok (str_of "./data/restart_dnest1d.txt_1_21") /\
  snapshot_name (told true false (line_file (str_of ".") 12) None (str_of "_12") (str_of "1d")) 1 = Ok (str_of "./data/restart_dnest1d.txt_12_1").
Proof. split; reflexivity. Qed.

(** *** The drivers of the mapping modes and of the continuum: in bounds, the flags and the
    ending right *)
Definition map_file (dir : word) : word := dir ++ str_of "/data/restart_dnest1d.txt".
Definition con_file (dir : word) : word := dir ++ str_of "/data/restart_dnest.txt".
Lemma old_shape : forall dir rs pp junk, List.length junk = 11 -> List.length dir + 25 < 256 ->
  exists r, mc_old_argv junk dir rs pp = Ok (List.length (mc_old_args dir rs pp), mc_old_args dir rs pp ++ r) /\ List.length (mc_old_args dir rs pp ++ r) = 11 /\ 2 <= List.length r.
Proof.
  intros dir rs pp junk LJ LD.
  assert (LF : List.length (dir ++ lit "/data/restart_dnest1d.txt") < 256) by (rewrite app_length; cbn; lia).
  destruct junk as [|j0 [|j1 [|j2 [|j3 [|j4 [|j5 [|j6 [|j7 [|j8 [|j9 [|j10 [|? ?]]]]]]]]]]]]; try discriminate LJ.
  unfold mc_old_argv, mc_old_args. generalize dependent (dir ++ lit "/data/restart_dnest1d.txt"). intros F LF.
  destruct rs, pp; cbn [firstn app]; rewrite writes_ok by first [short|cbn; lia]; cbn [firstn skipn app Nat.add List.length bind];
    [exists [j9; j10]|exists [j8; j9; j10]|exists [j7; j8; j9; j10]|exists [j6; j7; j8; j9; j10]]; split; try reflexivity; split; try reflexivity; cbn; lia.
Qed.
Lemma old_run : forall atof posix dir rs pp k r old s, List.length (mc_old_args dir rs pp ++ r) = 11 -> 2 <= List.length r ->
  List.length dir + 25 < 156 -> List.length (number k) < 155 ->
  exists al s' r', mc_old_run (List.length (mc_old_args dir rs pp)) (mc_old_args dir rs pp ++ r) k = Ok al /\
    dnest_args atof posix (fst al) (snd al) old s = Ok (told rs pp (map_file dir) old (str_of "_" ++ number k) (str_of "1d"), s') /\
    argv s' = mc_old_args dir rs pp ++ r' /\ List.length (mc_old_args dir rs pp ++ r') = 11 /\ 2 <= List.length r'.
Proof.
  intros atof posix dir rs pp k r old s LA LR LD LN. destruct r as [|r0 [|r1 r]]; try (cbn in LR; lia).
  assert (EX : postfix k = str_of "_" ++ number k) by reflexivity.
  assert (LX : List.length (postfix k) < 156) by (rewrite EX, app_length; cbn [List.length str_of list_ascii_of_string]; lia).
  assert (LF : List.length (map_file dir) < 156) by (unfold map_file; rewrite !app_length; cbn [List.length str_of list_ascii_of_string]; lia).
  unfold mc_old_run. rewrite <- EX. generalize dependent (postfix k). intros X _ LX. clear LN LR.
  rewrite writes_ok by first [short|rewrite app_length; cbn [List.length]; lia]. cbn [bind].
  rewrite firstn_app, Nat.sub_diag, firstn_all. cbn [firstn List.length]. rewrite app_nil_r, skipn_app, skipn_all2 by lia.
  replace (List.length (mc_old_args dir rs pp) + 2 - List.length (mc_old_args dir rs pp)) with 2 by lia. cbn [app skipn].
  assert (E : exists s', dnest_args atof posix (List.length (mc_old_args dir rs pp) + 2) (mc_old_args dir rs pp ++ lit "-x" :: X :: r) old s =
     Ok (told rs pp (map_file dir) old X (str_of "1d"), s') /\ argv s' = mc_old_args dir rs pp ++ lit "-x" :: X :: r).
  { clear LA LD. unfold mc_old_args. change (dir ++ lit "/data/restart_dnest1d.txt") with (map_file dir). generalize dependent (map_file dir). intros F LF.
    destruct rs, pp; cbn [app List.length Nat.add].
    1: pose (args := [lit "-s"; F; lit "-l"; lit "-r"; F; lit "-p"; lit "-g"; lit "1d"; lit "-x"; X]).
    2: pose (args := [lit "-s"; F; lit "-l"; lit "-r"; F; lit "-g"; lit "1d"; lit "-x"; X]).
    3: pose (args := [lit "-s"; F; lit "-l"; lit "-p"; lit "-g"; lit "1d"; lit "-x"; X]).
    4: pose (args := [lit "-s"; F; lit "-l"; lit "-g"; lit "1d"; lit "-x"; X]).
    all: let q := eval lazy in (scan posix (one_of "pcl") (one_of "rstxgm") args) in
      match q with Parsed ?opts _ _ _ => destruct (dnest_told atof posix args r old s opts) as (s' & E & AV) end;
      [reflexivity
      |repeat (apply List.Forall_cons; [cbn [valid_opt fst snd]; first [split; [reflexivity|auto; cbn; lia]|reflexivity]|]); apply List.Forall_nil|];
      exists s'; split; [exact E|exact AV]. }
  destruct E as (s' & E & AV). eexists. exists s', (lit "-x" :: X :: r). split; [reflexivity|]. split; [exact E|]. split; [exact AV|].
  rewrite app_length in *. cbn [List.length] in *. lia.
Qed.
Theorem C85_mapping : forall atof posix dir rs pp ks junk old s,
  List.length junk = 11 -> List.length dir + 25 < 156 -> (forall k, In k ks -> List.length (number k) < 155) ->
  (al <- mc_old_argv junk dir rs pp ;; mc_runs atof (fun l k => mc_old_run (fst al) l k) posix ks (snd al) old s) =
  Ok (map (fun k => told rs pp (map_file dir) old (str_of "_" ++ number k) (str_of "1d")) ks).
Proof.
  intros atof posix dir rs pp ks junk old s LJ LD LK.
  destruct (old_shape dir rs pp junk LJ ltac:(lia)) as (r & -> & LA & LR). cbn [bind fst snd].
  revert r LA LR old s. induction ks as [|k ks IH]; intros r LA LR old s; [reflexivity|]. cbn [mc_runs map].
  destruct (old_run atof posix dir rs pp k r old s LA LR LD (LK k (or_introl eq_refl))) as (al & s' & r' & E1 & E2 & AV & LA' & LR'). rewrite E1. cbn [bind]. rewrite E2. cbn [bind].
  rewrite AV. rewrite (IH (fun k' I => LK k' (or_intror I)) r' LA' LR'). cbn [bind]. do 2 f_equal.
  apply map_ext. intros k'. unfold told. destruct rs; reflexivity.
Qed.
Print Assumptions C85_mapping.
Theorem C85_continuum : forall atof posix dir rs pp junk old s, List.length junk = 9 -> List.length dir + 23 < 156 ->
  exists s', (al <- mc_con_argv junk dir rs pp ;; dnest_args atof posix (fst al) (snd al) old s) = Ok (told rs pp (con_file dir) old [] [], s').
Proof.
  intros atof posix dir rs pp junk old s LJ LD.
  assert (LF : List.length (con_file dir) < 156) by (unfold con_file; rewrite !app_length; cbn [List.length str_of list_ascii_of_string]; lia).
  destruct junk as [|j0 [|j1 [|j2 [|j3 [|j4 [|j5 [|j6 [|j7 [|j8 [|? ?]]]]]]]]]]; try discriminate LJ.
  unfold mc_con_argv, mc_con_args. change (dir ++ lit "/data/restart_dnest.txt") with (con_file dir). generalize dependent (con_file dir). intros F LF.
  destruct rs, pp; cbn [firstn app]; rewrite writes_ok by first [short|cbn; lia]; cbn [firstn skipn app Nat.add List.length bind fst snd].
  1: pose (args := [lit "-s"; F; lit "-l"; lit "-r"; F; lit "-p"]); pose (r := [j7; j8]).
  2: pose (args := [lit "-s"; F; lit "-l"; lit "-r"; F]); pose (r := [j6; j7; j8]).
  3: pose (args := [lit "-s"; F; lit "-l"; lit "-p"]); pose (r := [j5; j6; j7; j8]).
  4: pose (args := [lit "-s"; F; lit "-l"]); pose (r := [j4; j5; j6; j7; j8]).
  all: let q := eval lazy in (scan posix (one_of "pcl") (one_of "rstxgm") args) in
    match q with Parsed ?opts _ _ _ => destruct (dnest_told atof posix args r old s opts) as (s' & E & AV) end;
    [reflexivity
    |repeat (apply List.Forall_cons; [cbn [valid_opt fst snd]; first [split; [reflexivity|auto; cbn; lia]|reflexivity]|]); apply List.Forall_nil|];
    exists s'; exact E.
Qed.
Print Assumptions C85_continuum.
Example C85_mapping_example : List.length (repeat (str_of "?") 11) = 11 /\ List.length (str_of "/home/user/mica2") + 25 < 156 /\ (forall k, In k [1; 2; 3] -> List.length (number k) < 155) /\
  map_file (str_of ".") = str_of "./data/restart_dnest1d.txt" /\ con_file (str_of ".") = str_of "./data/restart_dnest.txt".
Proof. split; [reflexivity|]. split; [cbn; lia|]. split; [|split; reflexivity]. intros k [<-|[<-|[<-|[]]]]; cbn; lia. Qed.

(** ** What fails.  docs/resume.rst: snapshots are named restart_dnest1d.txt_yy_xxx with the
    number yy of components.  In the mapping modes every run of a range writes the same
    names, so a later run overwrites the snapshots of an earlier one, and a restart gives
    every number of components the same file. *)
Theorem C85_mapping_shares : forall atof posix dir rs pp k k' junk old s,
  List.length junk = 11 -> List.length dir + 25 < 156 -> List.length (number k) < 155 -> List.length (number k') < 155 -> k <> k' ->
  exists d d', (al <- mc_old_argv junk dir rs pp ;; mc_runs atof (fun l k => mc_old_run (fst al) l k) posix [k; k'] (snd al) old s) = Ok [d; d'] /\
    (forall n, snapshot_name d n = snapshot_name d' n) /\ restart_name d = restart_name d' /\ d_postfix d <> d_postfix d'.
Proof.
  intros atof posix dir rs pp k k' junk old s LJ LD L1 L2 NE. rewrite C85_mapping; [|auto|auto|intros x [<-|[<-|[]]]; auto].
  do 2 eexists. split; [reflexivity|]. split; [reflexivity|]. split; [reflexivity|]. cbn [told d_postfix]. intros E. apply app_inv_head, number_inj in E. auto.
Qed.
Print Assumptions C85_mapping_shares.
Theorem C85_own_snapshot_refuted : exists dir k k', k <> k' /\ forall atof posix rs pp junk old s, List.length junk = 11 ->
  exists d d', (al <- mc_old_argv junk dir rs pp ;; mc_runs atof (fun l k => mc_old_run (fst al) l k) posix [k; k'] (snd al) old s) = Ok [d; d'] /\
    (forall n, snapshot_name d n = snapshot_name d' n) /\ restart_name d = restart_name d' /\ d_postfix d <> d_postfix d'.
Proof.
  exists (str_of "."), 1, 2. split; [discriminate|]. intros atof posix rs pp junk old s LJ.
  apply C85_mapping_shares; auto; cbn; lia.
Qed.
Print Assumptions C85_own_snapshot_refuted.
(** The parameter file may name a directory of up to 255 characters (src/allvars.h:
    MICA_MAX_STR_LENGTH 256); the sampler copies the names made from it into arrays of 156. *)
Theorem C85_long_directory_undefined : forall atof posix rs pp k ks junk old s dir, List.length junk = 11 -> 131 <= List.length dir < 200 ->
  List.length (number k) < 30 ->
  (al <- mc_old_argv junk dir rs pp ;; mc_runs atof (fun l k => mc_old_run (fst al) l k) posix (k :: ks) (snd al) old s) = UB.
Proof.
  intros atof posix rs pp k ks junk old s dir LJ LD LN.
  destruct (old_shape dir rs pp junk LJ ltac:(lia)) as (r & -> & LA & LR). cbn [bind fst snd mc_runs].
  destruct r as [|r0 [|r1 r]]; try (cbn in LR; lia).
  unfold mc_old_run. assert (LX : List.length (postfix k) < 256) by (unfold postfix; rewrite app_length; cbn [List.length lit list_ascii_of_string]; change (dec k) with (number k); lia).
  generalize dependent (postfix k). intros X LX.
  rewrite writes_ok by first [short|rewrite app_length; cbn [List.length]; lia]. cbn [bind fst snd].
  rewrite firstn_app, Nat.sub_diag, firstn_all. cbn [firstn List.length]. rewrite app_nil_r, skipn_app, skipn_all2 by lia.
  replace (List.length (mc_old_args dir rs pp) + 2 - List.length (mc_old_args dir rs pp)) with 2 by lia. cbn [app skipn].
  assert (E : dnest_args atof posix (List.length (mc_old_args dir rs pp) + 2) (mc_old_args dir rs pp ++ lit "-x" :: X :: r) old s = UB); [|rewrite E; reflexivity].
  assert (SF : strcpy STR_MAX_LENGTH (map_file dir) = UB).
  { unfold strcpy, map_file. rewrite app_length. replace (_ <? _) with false; auto. symmetry. apply Nat.ltb_ge. unfold STR_MAX_LENGTH. cbn. lia. }
  clear LA LR. unfold mc_old_args. change (dir ++ lit "/data/restart_dnest1d.txt") with (map_file dir). generalize dependent (map_file dir). intros F SF.
  destruct rs, pp; cbn [app List.length Nat.add].
  1: pose (args := [lit "-s"; F; lit "-l"; lit "-r"; F; lit "-p"; lit "-g"; lit "1d"; lit "-x"; X]).
  2: pose (args := [lit "-s"; F; lit "-l"; lit "-r"; F; lit "-g"; lit "1d"; lit "-x"; X]).
  3: pose (args := [lit "-s"; F; lit "-l"; lit "-p"; lit "-g"; lit "1d"; lit "-x"; X]).
  4: pose (args := [lit "-s"; F; lit "-l"; lit "-g"; lit "1d"; lit "-x"; X]).
  all: let q := eval lazy in (scan posix (one_of "pcl") (one_of "rstxgm") args) in
    match q with Parsed ?opts _ _ _ => apply (dnest_ub atof posix (lit "dnest") args r old s opts) end;
    [reflexivity|cbn [handles]; change (dnest_switch atof ?d "s" (Some F)) with (a <- strcpy STR_MAX_LENGTH F ;; Ok (Dargs false false false false a old [] []));
     rewrite SF; reflexivity].
Qed.
Print Assumptions C85_long_directory_undefined.
Theorem C85_long_directory_refuted : exists dir, List.length dir < 256 /\ forall atof posix rs pp junk old s, List.length junk = 11 ->
  (al <- mc_old_argv junk dir rs pp ;; mc_runs atof (fun l k => mc_old_run (fst al) l k) posix [1] (snd al) old s) = UB.
Proof.
  exists (repeat "a"%char 131). rewrite repeat_length. split; [lia|]. intros atof posix rs pp junk old s LJ.
  apply C85_long_directory_undefined; auto; [rewrite repeat_length; lia|cbn; lia].
Qed.
Print Assumptions C85_long_directory_refuted.
