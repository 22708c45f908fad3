(** C20 (option file) and C46 (parameter file). *)
From Coq Require Import ZArith QArith List Bool Lia Ascii String Permutation.
From Verif Require Import CPrelude TagModel TagSpec TagProofs ParsetModel TagFacts ParsetFacts.
Import ListNotations.
Open Scope Z_scope.

(** ** Names *)
Definition option_names : list word := map w_of
  [ "NumberParticles"; "NewLevelIntervalFactor"; "SaveIntervalFactor"; "ThreadStepsFactor"; "MaxNumberLevels";
    "BacktrackingLength"; "StrengthEqualPush"; "MaxNumberSaves"; "PTol" ]%string.
Definition option_ints : list word := map w_of ["NumberParticles"; "MaxNumberLevels"; "MaxNumberSaves"]%string.
Definition par_names : list word := map w_of
  [ "FileDir"; "DataFile"; "TypeModel"; "MaxNumberSaves"; "FlagUniformVarParams"; "FlagUniformTranFuns";
    "FlagLongtermTrend"; "FlagNegativeResp"; "LagLimitLow"; "LagLimitUpp"; "WidthLimitLow"; "WidthLimitUpp";
    "NumGaussianLow"; "NumGaussianUpp"; "NumCompLow"; "NumCompUpp"; "FlagConSysErr"; "FlagLineSysErr";
    "TypeLagPrior"; "StrLagPrior"; "StrWidthPrior"; "StrRatioPrior"; "TypeTF"; "StrTypeTFMix"; "FlagLagPositivity";
    "FlagGap"; "StrGapPrior"; "NumberParticles"; "NewLevelIntervalFactor"; "SaveIntervalFactor"; "ThreadStepsFactor";
    "MaxNumberLevels"; "BacktrackingLength"; "StrengthEqualPush"; "PTol"; "NumPointRec"; "TimeRecLowExt"; "TimeRecUppExt" ]%string.
Definition par_ints : list word := map w_of
  [ "TypeModel"; "MaxNumberSaves"; "FlagUniformVarParams"; "FlagUniformTranFuns"; "FlagLongtermTrend";
    "FlagNegativeResp"; "NumGaussianLow"; "NumGaussianUpp"; "NumCompLow"; "NumCompUpp"; "FlagConSysErr";
    "FlagLineSysErr"; "TypeLagPrior"; "TypeTF"; "FlagLagPositivity"; "FlagGap"; "NumberParticles";
    "MaxNumberLevels"; "NumPointRec" ]%string.

(** Every value given for an integer option converts to its type. *)
Definition ints_fit (conv : num -> outcome Z) (atof : word -> num) (ints : list word) (ss : list (word * word)) : Prop :=
  forall t v, In (t, v) ss -> In t ints -> exists z, conv (atof v) = Ok z.

Lemma settings_short : forall comment f t v, plain f -> In (t, v) (settings comment f) -> (List.length v <= 198)%nat.
Proof.
  intros comment f t v [_ H] Hin. unfold settings in Hin. apply in_flat_map in Hin as (l & Hl & Hin).
  destruct (kind_of comment l) as [| |t' v'] eqn:E; try destruct Hin as [].
  - injection H0 as <- <-. apply kind_of_short in E. specialize (H l Hl). lia.
  - destruct H0.
Qed.
Lemma decodes_fit : forall atof dict comment f (ints : list word) conv, plain f ->
  (forall e, In e dict -> e_ty e <> DOUBLE -> e_ty e <> STRING -> In (e_tag e) ints /\
     forall v z, conv (atof v) = Ok z -> decode atof (e_ty e) v = Ok (VI z)) ->
  ints_fit conv atof ints (settings comment f) -> Forall (decodes atof dict) (settings comment f).
Proof.
  intros atof dict comment f ints conv Hp Hc Hi. rewrite Forall_forall. intros [t v] Hin. unfold decodes. simpl.
  destruct (entry_of dict t) as [e|] eqn:E; [|exact I]. unfold entry_of in E. apply find_some in E as [E1 E2].
  apply weqb_eq in E2. subst t.
  destruct (e_ty e) eqn:Et; try (simpl; eauto; fail).
  - simpl. pose proof (settings_short _ _ _ _ Hp Hin). rewrite (proj2 (Nat.ltb_lt _ _)) by lia. eauto.
  - destruct (Hc e E1) as [X Y]; try congruence. destruct (Hi _ _ Hin X) as [z Hz]. rewrite <- Et. eauto.
  - destruct (Hc e E1) as [X Y]; try congruence. destruct (Hi _ _ Hin X) as [z Hz]. rewrite <- Et. eauto.
Qed.
Lemma opt_decodes : forall atof f, plain f ->
  ints_fit to_uint atof option_ints (settings opt_comment f) -> Forall (decodes atof opt_dict) (settings opt_comment f).
Proof.
  intros atof f Hp. apply decodes_fit; [exact Hp|]. intros e He H1 H2. repeat destruct He as [<-|He]; try (exfalso; simpl in *; congruence);
    try (split; [simpl; tauto|intros v z Hz; simpl; rewrite Hz; reflexivity]).
Qed.
Lemma par_decodes : forall atof f, plain f ->
  ints_fit to_int atof par_ints (settings par_comment f) -> Forall (decodes atof par_dict) (settings par_comment f).
Proof.
  intros atof f Hp. apply decodes_fit; [exact Hp|]. intros e He H1 H2. repeat destruct He as [<-|He]; try (exfalso; simpl in *; congruence);
    try (split; [simpl; tauto|intros v z Hz; simpl; rewrite Hz; reflexivity]).
Qed.
Lemma opt_names : map e_tag opt_dict = option_names. Proof. reflexivity. Qed.
Lemma par_names_ok : map e_tag par_dict = par_names. Proof. reflexivity. Qed.

(** ** C20 *)
(** One line: a comment and a line with fewer than two words change nothing; a
    setting of a known option not set before sets its field; anything else
    stops the program. *)
Theorem C20_line : forall atof st l seen, ~ In NUL l -> marks opt_dict (isset st) seen ->
  (forall e, In e opt_dict -> (e_addr e < List.length (fields st))%nat) ->
  match kind_of opt_comment l with
  | Ignored | Comment => do_line atof opt_comment opt_dict st l = Ok st
  | Setting t v =>
    (~ In t option_names \/ In t seen -> do_line atof opt_comment opt_dict st l = Exit) /\
    (forall k e, nth_error opt_dict k = Some e -> e_tag e = t -> ~ In t seen ->
       forall x, decode atof (e_ty e) v = Ok x ->
       exists st', do_line atof opt_comment opt_dict st l = Ok st' /\ marks opt_dict (isset st') (t :: seen) /\
         nth_error (fields st') (e_addr e) = Some x /\
         forall a, a <> e_addr e -> nth_error (fields st') a = nth_error (fields st) a)
  end.
Proof.
  intros atof st l seen HN Hm Ha. rewrite do_line_spec by exact HN.
  destruct (kind_of opt_comment l) as [| |t v]; try reflexivity. split.
  - intros H. eapply assign_exit; [exact Hm|]. rewrite opt_names. exact H.
  - intros k e Hk Ht Hs x Hx. pose proof (entry_of_nth opt_dict opt_dict_nodup t k e Hk Ht) as He.
    destruct (assign_ok atof opt_dict opt_dict_nodup st seen (t, v) Hm Ha) as (st' & E & Hm' & _ & Hf).
    + unfold decodes. cbn [fst snd]. rewrite He. eauto.
    + simpl fst. rewrite <- Ht. apply in_map. eapply nth_error_In; eauto.
    + exact Hs.
    + exists st'. split; [exact E|]. split; [exact Hm'|]. split.
      * rewrite Hf. unfold field_after. cbn [fold_left fst snd]. rewrite He, Nat.eqb_refl, Hx. reflexivity.
      * intros a Hne. rewrite Hf. unfold field_after. cbn [fold_left fst snd]. rewrite He.
        destruct (Nat.eqb_spec (e_addr e) a); [congruence|reflexivity].
Qed.
Print Assumptions C20_line.

(** The whole file: accepted options are exactly what the settings say,
    defaults elsewhere, the save-interval factor being by default the
    new-level factor. *)
Theorem C20_values : forall atof f num_params totaltask o, plain f ->
  options_load atof f num_params totaltask = Ok o ->
  let ss := settings opt_comment f in
  well_formed option_names ss /\
  int_value to_uint atof ss "NumberParticles" 1 (op_particles o) /\
  op_nlif o = dbl_value atof ss "NewLevelIntervalFactor" (Num 2) /\
  op_sif o = dbl_value atof ss "SaveIntervalFactor" (op_nlif o) /\
  op_tsf o = dbl_value atof ss "ThreadStepsFactor" (Num 10) /\
  int_value to_uint atof ss "MaxNumberLevels" 0 (op_maxlevels o) /\
  op_lam o = dbl_value atof ss "BacktrackingLength" (Num 10) /\
  op_beta o = dbl_value atof ss "StrengthEqualPush" (Num 100) /\
  int_value to_uint atof ss "MaxNumberSaves" 10000 (op_maxsaves o) /\
  op_ptol o = dbl_value atof ss "PTol" (Num (1#10)).
Proof.
  intros atof f num_params totaltask o Hp H ss. destruct (options_load_ok_wf _ _ _ _ _ Hp H) as [W D]. fold ss in W, D.
  destruct (options_load_spec atof f num_params totaltask Hp W D) as (np & maxl & maxs & H1 & H2 & H3 & E).
  fold ss in H1, H2, H3, E. cbv zeta in E. rewrite E in H. unfold opt_derive in H.
  destruct (to_uint (qmul (qmul _ _) _)) as [ts| | |]; try discriminate. cbn [bind] in H.
  destruct (to_uint _) as [nli| | |]; try discriminate. cbn [bind] in H.
  destruct (to_uint _) as [si| | |]; try discriminate. cbn [bind] in H.
  destruct (_ <? _); [discriminate|]. injection H as <-. cbn [op_particles op_nlif op_sif op_tsf op_maxlevels op_lam op_beta op_maxsaves op_ptol].
  split; [exact W|]. repeat (split; [first [reflexivity|assumption]|]). reflexivity.
Qed.
Print Assumptions C20_values.

(** A file with an unknown option, or one given twice, stops the program. *)
Theorem C20_rejected : forall atof f num_params totaltask, plain f ->
  ints_fit to_uint atof option_ints (settings opt_comment f) ->
  ~ well_formed option_names (settings opt_comment f) ->
  options_load atof f num_params totaltask = Exit.
Proof.
  intros atof f num_params totaltask Hp Hi W. unfold options_load.
  rewrite (read_file_exit atof opt_dict opt_dict_nodup opt_comment f opt_dflt Hp opt_addr); [reflexivity| |exact W].
  apply opt_decodes; assumption.
Qed.
Print Assumptions C20_rejected.

Lemma trunc_mul : forall q b, (1 <= q)%Q -> 0 <= b -> b <= trunc (inject_Z b * q).
Proof.
  intros [n d] b Hq Hb. unfold Qle in Hq. simpl in Hq. unfold trunc. simpl.
  rewrite Z.quot_div_nonneg by nia. apply Z.div_le_lower_bound; nia.
Qed.
(** A well-formed file whose numbers fit and whose new-level factor is at least
    1 is accepted. *)
Theorem C20_accepted : forall atof f num_params totaltask q s ts, plain f ->
  let ss := settings opt_comment f in
  well_formed option_names ss -> ints_fit to_uint atof option_ints ss ->
  dbl_value atof ss "NewLevelIntervalFactor" (Num 2) = Num q -> (1 <= q)%Q ->
  dbl_value atof ss "SaveIntervalFactor" (Num q) = Num s -> (0 <= s)%Q ->
  (forall np, int_value to_uint atof ss "NumberParticles" 1 np ->
     to_uint (qmul (qmul (dbl_value atof ss "ThreadStepsFactor" (Num 10)) (inject_Z num_params)) (inject_Z np)) = Ok ts) ->
  0 <= totaltask -> (inject_Z (totaltask * ts) * q < inject_Z (2^32))%Q -> (inject_Z (totaltask * ts) * s < inject_Z (2^32))%Q ->
  exists o, options_load atof f num_params totaltask = Ok o.
Proof.
  intros atof f num_params totaltask q s ts Hp ss W Hi Hq Hq1 Hs Hs0 Hts Ht B1 B2.
  pose proof (opt_decodes atof f Hp Hi) as D. fold ss in D.
  destruct (options_load_spec atof f num_params totaltask Hp W D) as (np & maxl & maxs & H1 & H2 & H3 & E).
  fold ss in H1, H2, H3, E. cbv zeta in E. rewrite E. rewrite Hq, Hs. unfold opt_derive. rewrite (Hts np H1). cbn [bind].
  assert (Hts0 : 0 <= ts).
  { specialize (Hts np H1). unfold to_uint in Hts. destruct (qmul _ _); try discriminate.
    destruct (_ && _) eqn:X; [|discriminate]. apply andb_true_iff in X as [X _]. injection Hts as <-. lia. }
  assert (Hb : u32 (totaltask * ts) = totaltask * ts).
  { unfold u32. apply Z.mod_small. split; [nia|]. unfold Qlt, Qle in *. simpl in *. destruct q as [n d]. simpl in *. nia. }
  rewrite Hb. set (b := totaltask * ts) in *. assert (Hb0 : 0 <= b) by (unfold b; nia).
  assert (R : forall x, (0 <= x)%Q -> (inject_Z b * x < inject_Z (2^32))%Q ->
     to_uint (qmul (Num x) (inject_Z b)) = Ok (trunc (inject_Z b * x))).
  { intros x Hx Hx2. unfold qmul, to_uint. destruct x as [n d]. unfold Qle, Qlt, trunc in *. simpl in Hx, Hx2. simpl Qnum. simpl Qden.
    rewrite Z.quot_div_nonneg by nia.
    rewrite (proj2 (Z.leb_le _ _)), (proj2 (Z.ltb_lt _ _)); [reflexivity| |].
    - apply Z.div_lt_upper_bound; nia.
    - apply Z.div_pos; nia. }
  assert (Hq0 : (0 <= q)%Q) by (apply Qle_trans with 1%Q; [discriminate|exact Hq1]).
  rewrite (R q Hq0 B1), (R s Hs0 B2). cbn [bind].
  pose proof (trunc_mul q b Hq1 Hb0) as T. rewrite (proj2 (Z.ltb_ge _ _) T). eauto.
Qed.
Print Assumptions C20_accepted.

(** The order of the lines is irrelevant. *)
Lemma opt_no_alias : forall ss, no_alias opt_dict ss.
Proof.
  intros ss t1 v1 e1 t2 v2 e2 _ _ H1 H2 Ha. unfold entry_of in *. apply find_some in H1 as [I1 E1], H2 as [I2 E2].
  apply weqb_eq in E1, E2. subst t1 t2. simpl in I1, I2.
  repeat (destruct I1 as [<-|I1]; [repeat (destruct I2 as [<-|I2]; [first [reflexivity|discriminate]|]); destruct I2|]). destruct I1.
Qed.
Theorem C20_order : forall atof f1 f2 num_params totaltask, plain f1 -> plain f2 ->
  Permutation (lines f1) (lines f2) ->
  forall o, options_load atof f1 num_params totaltask = Ok o <-> options_load atof f2 num_params totaltask = Ok o.
Proof.
  intros atof f1 f2 num_params totaltask P1 P2 HP o.
  assert (X : forall f1 f2, plain f1 -> plain f2 -> Permutation (lines f1) (lines f2) ->
    options_load atof f1 num_params totaltask = Ok o -> options_load atof f2 num_params totaltask = Ok o).
  { clear. intros f1 f2 P1 P2 HP H. unfold options_load in *.
    destruct (read_file atof opt_comment opt_dict f1 opt_dflt) as [st| | |] eqn:E; try discriminate.
    rewrite (read_file_order atof opt_dict opt_dict_nodup opt_comment f1 f2 opt_dflt st P1 P2 HP opt_addr (opt_no_alias _) E).
    exact H. }
  split; apply X; auto. apply Permutation_sym, HP.
Qed.
Print Assumptions C20_order.

(** Accepted options: a new level is due at most once per round. *)
Theorem C20_interval : forall atof f num_params totaltask o,
  options_load atof f num_params totaltask = Ok o ->
  0 <= totaltask -> totaltask * op_steps o < 2^32 -> totaltask * op_steps o <= op_nli o.
Proof.
  intros atof f num_params totaltask o H Ht Hb. unfold options_load in H.
  repeat match type of H with bind ?x _ = _ => destruct x eqn:?; try discriminate H; cbn [bind] in H end.
  destruct (_ <? u32 _) eqn:X; [discriminate H|]. injection H as <-. cbn [op_steps op_nli] in *.
  apply Z.ltb_ge in X. unfold u32 in X.
  match type of Hb with _ * ?ts < _ => assert (0 <= ts) end.
  { match goal with E : to_uint _ = Ok ?ts |- 0 <= ?ts => unfold to_uint in E; destruct (qmul _ _); try discriminate;
      destruct (_ && _) eqn:Y; [|discriminate]; apply andb_true_iff in Y as [Y _]; injection E as <-; lia end. }
  rewrite Z.mod_small in X by nia. exact X.
Qed.
Print Assumptions C20_interval.

Theorem C20_terminates : forall atof f dflt, read_file atof opt_comment opt_dict f dflt <> Stuck.
Proof. intros. apply read_file_terminates. Qed.
Print Assumptions C20_terminates.

(** A plain decimal reader for the examples. *)
Fixpoint digits (acc : Z) (w : word) : Z * word :=
  match w with
  | c :: r => let n := Z.of_N (N_of_ascii c) - 48 in
              if (0 <=? n) && (n <=? 9) then digits (10 * acc + n) r else (acc, w)
  | [] => (acc, [])
  end.
Definition atof10 (w : word) : num :=
  let '(neg, w) := match w with c :: r => if ascii_dec c "-" then (true, r) else (false, w) | [] => (false, []) end in
  let '(a, r) := digits 0 w in
  let q := match r with
           | c :: r' => if ascii_dec c "." then
                          let '(b, r'') := digits 0 r' in
                          (a * 10 ^ Z.of_nat (List.length r' - List.length r'') + b)
                            # (Pos.pow 10 (Pos.of_nat (List.length r' - List.length r'')))
                        else inject_Z a
           | [] => inject_Z a
           end in
  Num (if neg : bool then - q else q).
Definition txt (ls : list string) : list ascii := flat_map (fun l => w_of l ++ [nl]) ls.

Definition plainb (f : list ascii) : bool :=
  forallb (fun c => if ascii_dec c NUL then false else true) f && forallb (fun l => (List.length l <=? 198)%nat) (lines f).
Lemma plainb_ok : forall f, plainb f = true -> plain f.
Proof.
  intros f H. apply andb_true_iff in H as [H1 H2]. rewrite forallb_forall in H1, H2. split.
  - intros X. specialize (H1 _ X). destruct (ascii_dec NUL NUL); congruence.
  - intros l Hl. apply Nat.leb_le, H2, Hl.
Qed.

Definition ex_opts : list ascii := txt
  [ "# File containing parameters for DNest"; "NumberParticles          2  # Number of particles";
    ""; "lonely"; "NewLevelIntervalFactor   1.5"; "% old style comment"; "MaxNumberSaves 3000"; "PTol 0.01" ]%string.
Example C20_example : plain ex_opts /\
  options_load atof10 ex_opts 7 4 =
  Ok (mkopts 2 (Num (15#10)) (Num (15#10)) (Num 10) 0 (Num 10) (Num 100) 3000 (Num (1#100)) 140 840 840).
Proof. split; [apply plainb_ok; vm_compute; reflexivity|vm_compute; reflexivity]. Qed.
(** The same lines in another order. *)
Example C20_order_example :
  let f2 := txt [ "PTol 0.01"; "NewLevelIntervalFactor   1.5"; ""; "lonely"; "% old style comment";
    "# File containing parameters for DNest"; "MaxNumberSaves 3000"; "NumberParticles          2  # Number of particles" ]%string in
  plain f2 /\ options_load atof10 f2 7 4 = options_load atof10 ex_opts 7 4.
Proof. split; [apply plainb_ok; vm_compute; reflexivity|vm_compute; reflexivity]. Qed.
Example C20_rejected_example :
  options_load atof10 (txt ["PTol 0.01"; "PTol 0.01"]%string) 7 4 = Exit /\
  options_load atof10 (txt ["Ptol 0.01"]%string) 7 4 = Exit /\
  options_load atof10 (txt ["NewLevelIntervalFactor 0.5"]%string) 7 4 = Exit.
Proof. repeat split; vm_compute; reflexivity. Qed.

(** Without the bound on line lengths the classification by lines fails: a file
    consisting of a single long comment line stops the program. *)
Theorem C20_long_comment_refuted : exists f,
  (forall l, In l (lines f) -> kind_of opt_comment l = Comment \/ l = []) /\
  forall atof, options_load atof f 7 4 = Exit.
Proof.
  exists (w_of "# " ++ repeat "x"%char 196 ++ w_of " two words" ++ [nl]). split.
  - intros l [<-|[<-|[]]]; [left|right; reflexivity]. vm_compute. reflexivity.
  - intros atof. vm_compute. reflexivity.
Qed.
Print Assumptions C20_long_comment_refuted.
(** The check does not guarantee progress: with few parameters and a small
    steps factor the options are accepted with zero steps per round. *)
Theorem C20_zero_steps_refuted : exists f o,
  plain f /\ options_load atof10 f 9 4 = Ok o /\ op_steps o = 0 /\ op_nli o = 0.
Proof.
  exists (txt ["ThreadStepsFactor 0.1"]%string). eexists. split; [apply plainb_ok; vm_compute; reflexivity|].
  split; [vm_compute; reflexivity|]. split; reflexivity.
Qed.
Print Assumptions C20_zero_steps_refuted.
(** The bound on tasks times steps is needed: the unsigned product wraps. *)
Theorem C20_interval_wrap_refuted : exists f o,
  plain f /\ options_load atof10 f 1 2 = Ok o /\ op_nli o < 2 * op_steps o.
Proof.
  exists (txt ["ThreadStepsFactor 2147483648"]%string). eexists. split; [apply plainb_ok; vm_compute; reflexivity|].
  split; [vm_compute; reflexivity|]. reflexivity.
Qed.
Print Assumptions C20_interval_wrap_refuted.

(** ** C46 *)
Theorem C46_line : forall atof st l seen, ~ In NUL l -> marks par_dict (isset st) seen ->
  (forall e, In e par_dict -> (e_addr e < List.length (fields st))%nat) ->
  match kind_of par_comment l with
  | Ignored | Comment => do_line atof par_comment par_dict st l = Ok st
  | Setting t v =>
    (~ In t par_names \/ In t seen -> do_line atof par_comment par_dict st l = Exit) /\
    (forall k e, nth_error par_dict k = Some e -> e_tag e = t -> ~ In t seen ->
       forall x, decode atof (e_ty e) v = Ok x ->
       exists st', do_line atof par_comment par_dict st l = Ok st' /\ marks par_dict (isset st') (t :: seen) /\
         nth_error (fields st') (e_addr e) = Some x /\
         forall a, a <> e_addr e -> nth_error (fields st') a = nth_error (fields st) a)
  end.
Proof.
  intros atof st l seen HN Hm Ha. rewrite do_line_spec by exact HN.
  destruct (kind_of par_comment l) as [| |t v]; try reflexivity. split.
  - intros H. eapply assign_exit; [exact Hm|]. rewrite par_names_ok. exact H.
  - intros k e Hk Ht Hs x Hx. pose proof (entry_of_nth par_dict par_dict_nodup t k e Hk Ht) as He.
    destruct (assign_ok atof par_dict par_dict_nodup st seen (t, v) Hm Ha) as (st' & E & Hm' & _ & Hf).
    + unfold decodes. cbn [fst snd]. rewrite He. eauto.
    + cbn [fst]. rewrite <- Ht. apply in_map. eapply nth_error_In; eauto.
    + exact Hs.
    + exists st'. split; [exact E|]. split; [exact Hm'|]. split.
      * rewrite Hf. unfold field_after. cbn [fold_left fst snd]. rewrite He, Nat.eqb_refl, Hx. reflexivity.
      * intros a Hne. rewrite Hf. unfold field_after. cbn [fold_left fst snd]. rewrite He.
        destruct (Nat.eqb_spec (e_addr e) a); [congruence|reflexivity].
Qed.
Print Assumptions C46_line.

(** A plain file ends in [Ok] exactly when every tag is known and given once
    and the values given, defaults elsewhere, are acceptable; the accepted
    values are those given, adjusted as described by [adjusted]. *)
Theorem C46_accepted : forall atof lp f q, plain f -> read_parset atof lp f = Ok q ->
  let ss := settings par_comment f in
  well_formed par_names ss /\
  exists p, raw atof ss p /\ acceptable lp p /\ adjusted p q.
Proof.
  intros atof lp f q Hp H ss. destruct (read_parset_ok_wf atof lp f q Hp H) as [W D].
  destruct (read_parset_spec atof lp f Hp W D) as (p & Hr & E). split; [exact W|].
  exists p. split; [exact Hr|]. apply par_check_sound. rewrite <- E. exact H.
Qed.
Print Assumptions C46_accepted.
Theorem C46_decided : forall atof lp f, plain f ->
  let ss := settings par_comment f in
  well_formed par_names ss -> ints_fit to_int atof par_ints ss ->
  exists p, raw atof ss p /\
    (acceptable lp p -> exists q, read_parset atof lp f = Ok q /\ adjusted p q) /\
    (~ acceptable lp p -> read_parset atof lp f = Exit).
Proof.
  intros atof lp f Hp ss W Hi. pose proof (par_decodes atof f Hp Hi) as D.
  destruct (read_parset_spec atof lp f Hp W D) as (p & Hr & E). exists p. split; [exact Hr|]. rewrite E. split.
  - intros A. destruct (par_check_complete lp p A) as [q Hq]. exists q. split; [exact Hq|]. apply (par_check_sound lp p q Hq).
  - apply par_check_exit.
Qed.
Print Assumptions C46_decided.
Theorem C46_rejected : forall atof lp f, plain f ->
  ints_fit to_int atof par_ints (settings par_comment f) ->
  ~ well_formed par_names (settings par_comment f) -> read_parset atof lp f = Exit.
Proof.
  intros atof lp f Hp Hi W. unfold read_parset.
  rewrite (read_file_exit atof par_dict par_dict_nodup par_comment f par_dflt Hp par_addr); [reflexivity| |exact W].
  apply par_decodes; assumption.
Qed.
Print Assumptions C46_rejected.

(** Order of lines, for files that do not use both names of a number of
    components. *)
Theorem C46_order : forall atof lp f1 f2, plain f1 -> plain f2 -> Permutation (lines f1) (lines f2) ->
  (forall n, In n ["Low"; "Upp"]%string ->
     ~ (In (w_of ("NumComp" ++ n)) (map fst (settings par_comment f1)) /\
        In (w_of ("NumGaussian" ++ n)) (map fst (settings par_comment f1)))) ->
  forall q, read_parset atof lp f1 = Ok q <-> read_parset atof lp f2 = Ok q.
Proof.
  intros atof lp f1 f2 P1 P2 HP HA q.
  assert (NA : forall f, Permutation (settings par_comment f1) (settings par_comment f) -> no_alias par_dict (settings par_comment f)).
  { intros f Hf t1 v1 e1 t2 v2 e2 I1 I2 H1 H2 Ha. unfold entry_of in *. apply find_some in H1 as [J1 E1], H2 as [J2 E2].
    apply weqb_eq in E1, E2.
    assert (K1 : In t1 (map fst (settings par_comment f1))).
    { change t1 with (fst (t1, v1)). apply in_map. eapply Permutation_in; [apply Permutation_sym, Hf|exact I1]. }
    assert (K2 : In t2 (map fst (settings par_comment f1))).
    { change t2 with (fst (t2, v2)). apply in_map. eapply Permutation_in; [apply Permutation_sym, Hf|exact I2]. }
    clear I1 I2 Hf. subst t1 t2.
    destruct (weqb (e_tag e1) (e_tag e2)) eqn:X; [apply weqb_eq, X|]. exfalso.
    assert (Y : forallb (fun e1 => forallb (fun e2 =>
       weqb (e_tag e1) (e_tag e2) || negb (Nat.eqb (e_addr e1) (e_addr e2)) ||
       existsb (fun n => weqb (e_tag e1) (w_of ("NumComp" ++ n)) && weqb (e_tag e2) (w_of ("NumGaussian" ++ n)) ||
                         weqb (e_tag e2) (w_of ("NumComp" ++ n)) && weqb (e_tag e1) (w_of ("NumGaussian" ++ n))) ["Low"; "Upp"]%string)
       par_dict) par_dict = true) by (vm_compute; reflexivity).
    rewrite forallb_forall in Y. specialize (Y e1 J1). rewrite forallb_forall in Y. specialize (Y e2 J2).
    rewrite X, Ha, Nat.eqb_refl in Y. cbn [negb orb] in Y. apply existsb_exists in Y as (n & Hn & Y).
    apply (HA n Hn). rewrite orb_true_iff, !andb_true_iff, !weqb_eq in Y.
    destruct Y as [[Y1 Y2]|[Y1 Y2]]; rewrite <- Y1, <- Y2; auto. }
  assert (X : forall f1 f2, plain f1 -> plain f2 -> Permutation (lines f1) (lines f2) ->
    no_alias par_dict (settings par_comment f1) ->
    read_parset atof lp f1 = Ok q -> read_parset atof lp f2 = Ok q).
  { clear. intros f1 f2 P1 P2 HP Hn H. unfold read_parset in *.
    destruct (read_file atof par_comment par_dict f1 par_dflt) as [st| | |] eqn:E; try discriminate.
    rewrite (read_file_order atof par_dict par_dict_nodup par_comment f1 f2 par_dflt st P1 P2 HP par_addr Hn E).
    exact H. }
  split; apply X; auto; [apply Permutation_sym, HP|].
  apply NA, perm_settings, HP.
Qed.
Print Assumptions C46_order.

Definition ex_par : list ascii := txt
  [ "# parameter file"; "FileDir ./"; "DataFile data.txt"; "TypeModel 0"; "LagLimitUpp 100"; "LagLimitLow -20.5";
    "NumCompLow 1"; "NumCompUpp 3"; "TypeLagPrior 1"; "" ]%string.
Example C46_example : plain ex_par /\
  read_parset atof10 false ex_par =
  Ok (mkparset 0 (Num (-205#10)) (Num 100) DMAX DMAX 1 3 1 [] 200 0 0 0 0 0 []).
Proof. split; [apply plainb_ok; vm_compute; reflexivity|vm_compute; reflexivity]. Qed.
Example C46_pmap_example :
  exists q, read_parset atof10 false (txt ["TypeModel 1"; "StrLagPrior [0:5:5:30]"]%string) = Ok q /\
   p_low q = 2 /\ p_upp q = 2 /\ p_prior q = 4.
Proof. eexists. split; [vm_compute; reflexivity|]. repeat split; reflexivity. Qed.
Example C46_rejected_example :
  read_parset atof10 false (txt ["TypeModel 0"; "LagLimitUpp 10"; "LagLimitLow 20"]%string) = Exit /\
  read_parset atof10 true (txt ["TypeModel 0"; "LagLimitUpp 10"; "NumCompUpp 2"]%string) = Exit /\
  read_parset atof10 false (txt ["TypeModel 3"; "StrTypeTFMix 04"]%string) = Exit.
Proof. repeat split; vm_compute; reflexivity. Qed.

(** Exceptions. FlagNegativeResp: every integer is accepted. *)
Theorem C46_negative_resp_refuted : forall n, - 2^31 <= n < 2^31 -> n <> 1 -> forall atof,
  atof (w_of "N") = Num (inject_Z n) -> atof (w_of "100") = Num 100 ->
  exists q, read_parset atof false (txt ["LagLimitUpp 100"; "FlagNegativeResp N"]%string) = Ok q /\ p_neg q = n.
Proof.
  intros n Hn H1 atof Ha H100. set (f := txt _).
  assert (Hp : plain f) by (apply plainb_ok; vm_compute; reflexivity).
  assert (Es : settings par_comment f = [(w_of "LagLimitUpp", w_of "100"); (w_of "FlagNegativeResp", w_of "N")]) by (vm_compute; reflexivity).
  assert (Hi : to_int (Num (inject_Z n)) = Ok n).
  { unfold to_int, trunc. cbn [Qnum Qden inject_Z]. rewrite Z.quot_1_r.
    rewrite (proj2 (Z.leb_le _ _)), (proj2 (Z.ltb_lt _ _)) by lia. reflexivity. }
  destruct (C46_decided atof false f Hp) as (p & R & A & _).
  - rewrite Es. split.
    + apply nodupb_ok. vm_compute. reflexivity.
    + intros x [<-|[<-|[]]]; vm_compute; tauto.
  - rewrite Es. intros t v [X|[X|[]]] Y; injection X as <- <-.
    + exfalso. revert Y. vm_compute. intuition discriminate.
    + exists n. change (to_int (atof (w_of "N")) = Ok n). rewrite Ha. exact Hi.
  - rewrite Es in R. destruct R as [R1 R2 R3 R4 R5 R6 R7 R8 R9 R10 R11 R12 R13 R14 R15 R16].
    cbv [int_value dbl_value str_value alias_value] in *.
    repeat match goal with H : context [given ?s ?t] |- _ => let g := eval vm_compute in (given s t) in change (given s t) with g in H end.
    cbv iota beta in *. change (atof (w_of "100")) with (atof (w_of "100")) in R3.
    assert (R3' : p_lag_upp p = Num 100) by (rewrite R3; exact H100).
    assert (R13' : p_neg p = n) by (change (to_int (atof (w_of "N")) = Ok (p_neg p)) in R13; rewrite Ha, Hi in R13; congruence).
    destruct A as (q & E & Adj).
    + constructor; rewrite ?R1, ?R2, ?R3', ?R4, ?R5, ?R6, ?R7, ?R8, ?R9, ?R10, ?R11, ?R12, ?R13', ?R14, ?R15, ?R16.
      * lia.
      * intros _. right. right. reflexivity.
      * intros _ X. exfalso. revert X. unfold width_given, less, DMAX, Qlt. lia.
      * intros _ X. exfalso. revert X. unfold width_given, less, DMAX, Qlt. lia.
      * intros _ X. exfalso. revert X. unfold width_given, less, DMAX, Qlt. lia.
      * intros X. exfalso. lia.
      * intros _. repeat split; intros; try lia; try discriminate.
      * intros _ _ X. exfalso. lia.
      * lia.
      * lia.
      * intros _ X. exfalso. lia.
      * intros _ X. exfalso. lia.
      * intros _ X. exfalso. lia.
      * intros _ X. exfalso. lia.
      * intros X. exfalso. lia.
    + exists q. split; [exact E|]. destruct Adj as (_ & _ & _ & _ & _ & _ & _ & _ & X & _). congruence.
Qed.
Print Assumptions C46_negative_resp_refuted.
(** TypeTF is not checked either. *)
Theorem C46_type_tf_refuted : exists f q, plain f /\ read_parset atof10 false f = Ok q /\ p_tf q = 9.
Proof.
  exists (txt ["LagLimitUpp 100"; "TypeTF 9"]%string). eexists. split; [apply plainb_ok; vm_compute; reflexivity|].
  split; [vm_compute; reflexivity|]. reflexivity.
Qed.
Print Assumptions C46_type_tf_refuted.
(** In mmap mode the requested lag prior is dropped, because the check of
    NumCompUpp = 1 precedes setting the number of components from
    StrTypeTFMix; and the requirement of three components for prior 2 can be
    circumvented. *)
Theorem C46_mmap_prior_refuted :
  (exists f q, plain f /\ read_parset atof10 false f = Ok q /\
     given (settings par_comment f) (w_of "TypeLagPrior") = Some (w_of "1") /\ p_prior q = 0 /\ p_upp q = 2) /\
  (exists f q, plain f /\ read_parset atof10 false f = Ok q /\ p_prior q = 2 /\ p_low q = 2).
Proof.
  split.
  - exists (txt ["TypeModel 3"; "StrTypeTFMix 01"; "TypeLagPrior 1"]%string). eexists.
    split; [apply plainb_ok; vm_compute; reflexivity|]. split; [vm_compute; reflexivity|]. repeat split; vm_compute; reflexivity.
  - exists (txt ["TypeModel 3"; "StrTypeTFMix 01"; "TypeLagPrior 2"; "NumCompLow 3"; "NumCompUpp 3"]%string). eexists.
    split; [apply plainb_ok; vm_compute; reflexivity|]. split; [vm_compute; reflexivity|]. repeat split; vm_compute; reflexivity.
Qed.
Print Assumptions C46_mmap_prior_refuted.
(** With both names of a number of components the order matters. *)
Theorem C46_alias_order_refuted : exists f1 f2 q1 q2, plain f1 /\ plain f2 /\ Permutation (lines f1) (lines f2) /\
  read_parset atof10 false f1 = Ok q1 /\ read_parset atof10 false f2 = Ok q2 /\ p_upp q1 <> p_upp q2.
Proof.
  exists (txt ["LagLimitUpp 100"; "NumCompUpp 2"; "NumGaussianUpp 3"]%string), (txt ["LagLimitUpp 100"; "NumGaussianUpp 3"; "NumCompUpp 2"]%string).
  eexists. eexists. split; [apply plainb_ok; vm_compute; reflexivity|]. split; [apply plainb_ok; vm_compute; reflexivity|].
  split; [|split; [vm_compute; reflexivity|split; [vm_compute; reflexivity|discriminate]]].
  vm_compute. apply perm_skip, perm_swap.
Qed.
Print Assumptions C46_alias_order_refuted.
