(** read_parset: values by tag, and exactly which values are accepted. *)
From Coq Require Import ZArith QArith List Bool Lia ZifyBool Ascii String Permutation.
From Verif Require Import CPrelude TagModel TagSpec TagProofs ParsetModel TagFacts.
Import ListNotations.
Open Scope Z_scope.

(** ** Which parameter values are accepted, in words of the documentation.
    [a < b] on numbers that may be NaN or infinite. *)
Definition is_nan (a : num) : Prop := a = NumNaN.
Definition less (a b : num) : Prop :=
  match a, b with
  | Num p, Num q => (p < q)%Q
  | NumInf true, Num _ | Num _, NumInf false | NumInf true, NumInf false => True
  | _, _ => False
  end.
Lemma nlt_less : forall a b, nlt a b = true <-> less a b.
Proof.
  intros [|x|p] [|y|q]; simpl; try (destruct x); try (destruct y); try tauto; try (split; [discriminate|tauto]).
  rewrite negb_true_iff. destruct (Qle_bool q p) eqn:E.
  - apply Qle_bool_iff in E. split; [discriminate|]. intros H. exfalso. apply (Qlt_not_le _ _ H E).
  - split; [intros _|reflexivity]. apply Qnot_le_lt. intros H. apply Qle_bool_iff in H. congruence.
Qed.
Lemma nle_less : forall a b, nle a b = false <-> is_nan a \/ is_nan b \/ less b a.
Proof.
  unfold is_nan.
  assert (QQ : forall p q, Qle_bool p q = false <-> (q < p)%Q).
  { intros p q. destruct (Qle_bool p q) eqn:E.
    - apply Qle_bool_iff in E. split; [discriminate|]. intros H. exfalso. apply (Qlt_not_le _ _ H E).
    - split; [intros _|reflexivity]. apply Qnot_le_lt. intros H. apply Qle_bool_iff in H. congruence. }
  intros [|x|p] [|y|q]; simpl; try (destruct x); try (destruct y); simpl; try tauto;
    try (split; [discriminate|intuition discriminate]); try (split; [tauto|reflexivity]).
  rewrite QQ. intuition discriminate.
Qed.

(** Conditions on the values as given (defaults where nothing is given).
    "upper not below lower" conditions are vacuous when one side is NaN. *)
Definition ordered (a b : num) : Prop := is_nan a \/ is_nan b \/ less a b.
Definition width_given (w : num) : Prop := less w DMAX.

Record acceptable (load_prior : bool) (p : parset) : Prop :=
  { ac_model : 0 <= p_model p <= 4;
    ac_lag : p_model p = 0 -> ordered (p_lag_low p) (p_lag_upp p);
    ac_wlow : p_model p <> 4 -> width_given (p_wid_low p) -> ordered (Num 0) (p_wid_low p);
    ac_wupp : p_model p <> 4 -> width_given (p_wid_upp p) -> ordered (Num 0) (p_wid_upp p);
    ac_width : p_model p <> 4 -> width_given (p_wid_low p) -> width_given (p_wid_upp p) -> ordered (p_wid_low p) (p_wid_upp p);
    ac_pmap : p_model p = 1 -> p_str_lag p <> [];
    (** numbers of components; for pmap anything below 2 counts as 2 *)
    ac_ncomp : p_model p <> 4 ->
      (p_model p <> 1 -> 1 <= p_low p <= p_upp p) /\
      (p_model p = 1 -> Z.max 2 (p_low p) <= Z.max 2 (p_upp p)) /\
      (load_prior = true -> p_model p <> 1 -> p_upp p <= p_low p) /\
      (load_prior = true -> p_model p = 1 -> Z.max 2 (p_upp p) <= Z.max 2 (p_low p));
    ac_prior : p_model p <> 4 -> p_model p <> 1 -> p_upp p <> 1 ->
      0 <= p_prior p <= 4 /\ (p_prior p = 2 \/ p_prior p = 3 -> 3 <= p_low p);
    ac_rec : p_model p <> 4 -> 0 <= p_nd_rec p;
    ac_trend : p_model p <> 4 -> 0 <= p_trend p <= 2;
    ac_pos : p_model p <> 4 -> p_pos p <> 0 -> ~ less (p_lag_low p) (Num 0);
    ac_pos_tf : p_model p <> 4 -> p_pos p = 1 -> p_tf p <> 2 /\ p_tf p <> 3;
    ac_neg : p_model p <> 4 -> p_neg p = 1 -> p_model p = 0;
    ac_unif : p_model p <> 4 -> p_unif_tf p <> 0 -> p_model p = 0;
    ac_mix : p_model p = 3 -> (2 <= List.length (p_mix p))%nat /\
             forall c, In c (p_mix p) -> In c ["0"; "1"; "2"; "3"]%char }.

(** What is changed in accepted values. *)
Definition adjusted (p q : parset) : Prop :=
  p_model q = p_model p /\ p_lag_low q = p_lag_low p /\ p_lag_upp q = p_lag_upp p /\
  p_wid_low q = p_wid_low p /\ p_wid_upp q = p_wid_upp p /\ p_str_lag q = p_str_lag p /\
  p_nd_rec q = p_nd_rec p /\ p_trend q = p_trend p /\ p_neg q = p_neg p /\ p_tf q = p_tf p /\
  p_unif_tf q = p_unif_tf p /\ p_mix q = p_mix p /\
  p_pos q = (if p_model p =? 3 then 0 else p_pos p) /\
  (p_model p = 4 -> q = p) /\
  (p_model p = 1 -> p_low q = Z.max 2 (p_low p) /\ p_upp q = Z.max 2 (p_upp p) /\ p_prior q = 4) /\
  (p_model p = 3 -> p_low q = Z.of_nat (List.length (p_mix p)) /\ p_upp q = p_low q) /\
  (p_model p = 0 \/ p_model p = 2 -> p_low q = p_low p /\ p_upp q = p_upp p) /\
  (p_model p = 0 \/ p_model p = 2 \/ p_model p = 3 ->
     let prior := if p_upp p =? 1 then 0 else p_prior p in
     p_prior q = if (p_neg p =? 1) && (prior =? 0) then 1 else prior).

Lemma mix_char_ok : forall c, mix_char_bad c = false <-> In c ["0"; "1"; "2"; "3"]%char.
Proof.
  intros c. unfold mix_char_bad. split.
  - intros H. rewrite orb_false_iff in H. destruct H as [H1 H2]. apply N.ltb_ge in H1, H2.
    rewrite <- (ascii_N_embedding c). 
    assert (X : (N_of_ascii c = 48 \/ N_of_ascii c = 49 \/ N_of_ascii c = 50 \/ N_of_ascii c = 51)%N) by lia.
    destruct X as [-> | [-> | [-> | ->]]]; simpl; auto.
  - intros [<-|[<-|[<-|[<-|[]]]]]; reflexivity.
Qed.
Lemma mix_ok : forall l, existsb mix_char_bad l = false <-> forall c, In c l -> In c ["0"; "1"; "2"; "3"]%char.
Proof.
  intros l. split.
  - intros H c Hc. apply mix_char_ok. destruct (mix_char_bad c) eqn:E; [|reflexivity].
    assert (existsb mix_char_bad l = true) by (apply existsb_exists; eauto). congruence.
  - intros H. destruct (existsb mix_char_bad l) eqn:E; [|reflexivity]. apply existsb_exists in E as (c & H1 & H2).
    apply H, mix_char_ok in H1. congruence.
Qed.

Ltac step H := match type of H with
  | (if ?b then Exit else _) = Ok _ => let E := fresh "E" in destruct b eqn:E; [discriminate H|]
  end.

Lemma andb_f_l : forall a b, a && b = false -> a = true -> b = false.
Proof. intros [] []; auto. Qed.

Theorem par_check_sound : forall lp p q, par_check lp p = Ok q -> acceptable lp p /\ adjusted p q.
Proof.
  intros lp p q H. unfold par_check in H.
  step H. destruct (p_model p =? 4) eqn:E4.
  { injection H as <-. split.
    - constructor; try lia; intros; exfalso; lia.
    - unfold adjusted. assert (p_model p =? 3 = false) as -> by lia. repeat split; try reflexivity; intros; exfalso; lia. }
  step H.
  set (low := if (p_model p =? 1) && (p_low p <? 2) then 2 else p_low p) in *.
  set (upp := if (p_model p =? 1) && (p_upp p <? 2) then 2 else p_upp p) in *.
  assert (Hlow : p_model p <> 1 /\ low = p_low p \/ p_model p = 1 /\ low = Z.max 2 (p_low p)).
  { unfold low. destruct ((p_model p =? 1) && (p_low p <? 2)) eqn:X; lia. }
  assert (Hupp : p_model p <> 1 /\ upp = p_upp p \/ p_model p = 1 /\ upp = Z.max 2 (p_upp p)).
  { unfold upp. destruct ((p_model p =? 1) && (p_upp p <? 2)) eqn:X; lia. }
  clearbody low upp.
  step H. step H. step H. step H. step H. step H. step H.
  set (prior := if upp =? 1 then 0 else if p_model p =? 1 then 4 else p_prior p) in *.
  assert (Hprior : prior = if upp =? 1 then 0 else if p_model p =? 1 then 4 else p_prior p) by reflexivity.
  clearbody prior.
  step H. step H. step H. step H. step H. step H. step H. step H. step H.
  set (prior' := if (p_neg p =? 1) && (prior =? 0) then 1 else prior) in *.
  assert (Hprior' : prior' = if (p_neg p =? 1) && (prior =? 0) then 1 else prior) by reflexivity.
  clearbody prior'.
  step H. step H.
  assert (F0 : 0 <= p_model p <= 4) by (clear - E; lia).
  assert (F4 : p_model p <> 4) by (clear - E4; lia).
  assert (F6 : 1 <= low <= upp) by (clear - E6 E8; lia).
  assert (F9 : lp = true -> upp <= low) by (clear - E9; lia).
  assert (F10 : 0 <= p_nd_rec p) by (clear - E10; lia).
  assert (F11 : 0 <= prior <= 4 /\ (prior = 2 \/ prior = 3 -> 3 <= low)) by (clear - E11 E12; lia).
  assert (F13 : 0 <= p_trend p <= 2) by (clear - E13 E14; lia).
  assert (F15 : p_pos p <> 0 -> nlt (p_lag_low p) (Num 0) = false) by (clear - E15; destruct (nlt _ _); lia).
  assert (F17 : p_neg p = 1 -> p_model p = 0) by (clear - E17; lia).
  assert (F18 : p_pos p = 1 -> p_tf p <> 2 /\ p_tf p <> 3) by (clear - E18; lia).
  assert (F19 : p_unif_tf p <> 0 -> p_model p = 0) by (clear - E19; lia).
  assert (F5 : p_model p = 1 -> p_str_lag p <> []) by (clear - E5; destruct (p_str_lag p); [lia|discriminate]).
  clear E E4 E6 E7 E8 E9 E10 E11 E12 E13 E14 E15 E16 E17 E18 E19 E5.
  assert (A1 : forall a b, nle a b = false -> ordered b a).
  { intros a b X. apply nle_less in X. unfold ordered. tauto. }
  assert (Hm : p_model p = 3 -> (2 <= List.length (p_mix p))%nat /\ (existsb mix_char_bad (p_mix p) = false) /\
                q = mkparset (p_model p) (p_lag_low p) (p_lag_upp p) (p_wid_low p) (p_wid_upp p)
            (Z.of_nat (List.length (p_mix p))) (Z.of_nat (List.length (p_mix p))) prior' (p_str_lag p) (p_nd_rec p) (p_trend p) 0 (p_neg p) (p_tf p) (p_unif_tf p) (p_mix p)).
  { intros M. rewrite (proj2 (Z.eqb_eq _ _) M) in H. cbv zeta in H. destruct (p_mix p) as [|c m] eqn:Em; [discriminate|]. step H. step H.
    injection H as <-. split; [cbn [List.length] in *; lia|]. split; reflexivity. }
  assert (Hm' : p_model p <> 3 -> q = mkparset (p_model p) (p_lag_low p) (p_lag_upp p) (p_wid_low p) (p_wid_upp p)
          low upp prior' (p_str_lag p) (p_nd_rec p) (p_trend p) (p_pos p) (p_neg p) (p_tf p) (p_unif_tf p) (p_mix p)).
  { intros M. apply Z.eqb_neq in M. rewrite M in H. congruence. }
  clear H. split.
  - constructor.
    + exact F0.
    + intros M. apply A1. apply (andb_f_l _ _ E0). clear - M; lia.
    + intros _ W. apply nlt_less in W. apply A1. apply (andb_f_l _ _ E1 W).
    + intros _ W. apply nlt_less in W. apply A1. apply (andb_f_l _ _ E2 W).
    + intros _ W1 W2. apply nlt_less in W1, W2. apply A1. apply (andb_f_l _ _ E3). rewrite W1, W2. reflexivity.
    + exact F5.
    + intros _. clear - Hlow Hupp F6 F9. repeat split; intros; try specialize (F9 H); lia.
    + intros _ M U. clear - M U Hlow Hupp F11 Hprior. assert (upp =? 1 = false) as X by lia. rewrite X in Hprior. assert (p_model p =? 1 = false) as Y by lia.
      rewrite Y in Hprior. subst prior. split; lia.
    + intros _. exact F10.
    + intros _. exact F13.
    + intros _ P L. apply nlt_less in L. rewrite (F15 P) in L. discriminate.
    + intros _. exact F18.
    + intros _. exact F17.
    + intros _. exact F19.
    + intros M. destruct (Hm M) as (L & X & _). split; [exact L|]. apply mix_ok, X.
  - clear E0 E1 E2 E3 F15 A1 F9 F10 F11 F13 F17 F18 F19 F5. unfold adjusted. destruct (p_model p =? 3) eqn:M.
    + destruct (Hm ltac:(lia)) as (L & X & ->). simpl. repeat (split; [reflexivity|]).
      split; [intros; exfalso; lia|]. split; [intros; exfalso; lia|]. split; [intros; split; reflexivity|].
      split; [intros; exfalso; lia|]. intros _. rewrite Hprior', Hprior.
      assert (p_model p =? 1 = false) as Y by lia. rewrite Y.
      assert (upp = p_upp p) as -> by lia. reflexivity.
    + rewrite (Hm' ltac:(lia)). simpl. repeat (split; [reflexivity|]).
      split; [intros; exfalso; lia|]. split.
      { intros M1. assert (p_model p =? 1 = true) as Y by lia. rewrite Y in Hprior.
        assert (upp =? 1 = false) as Z0 by lia. rewrite Z0 in Hprior. subst prior.
        rewrite andb_false_r in Hprior'. repeat split; lia. }
      split; [intros; exfalso; lia|]. split; [clear - Hlow Hupp; intros; split; lia|]. intros M0.
      rewrite Hprior', Hprior. assert (p_model p =? 1 = false) as Y by (clear - M0; lia). rewrite Y.
      assert (upp = p_upp p) as -> by (clear - Hupp M0; lia). reflexivity.
Qed.

Lemma pick_false : forall {A} (b : bool) (x y : A), b = false -> (if b then x else y) = y.
Proof. intros A b x y ->. reflexivity. Qed.

Theorem par_check_complete : forall lp p, acceptable lp p -> exists q, par_check lp p = Ok q.
Proof.
  intros lp p A. unfold par_check. pose proof (ac_model _ _ A).
  rewrite pick_false by lia. destruct (p_model p =? 4) eqn:E4; [eauto|].
  assert (M4 : p_model p <> 4) by lia.
  assert (A1 : forall a b, ordered b a -> nle a b = false).
  { intros a b X. apply nle_less. unfold ordered in X. tauto. }
  assert (A2 : forall a b, (a = true -> b = false) -> a && b = false) by (intros [] []; simpl; auto).
  rewrite pick_false by (apply A2; intros M; apply A1, (ac_lag _ _ A); lia).
  rewrite pick_false by (apply A2; intros M; apply A1, (ac_wlow _ _ A M4), nlt_less, M).
  rewrite pick_false by (apply A2; intros M; apply A1, (ac_wupp _ _ A M4), nlt_less, M).
  rewrite pick_false.
  2:{ apply A2. intros M. rewrite andb_true_iff in M. destruct M as [M1 M2].
      apply A1, (ac_width _ _ A M4); apply nlt_less; assumption. }
  destruct (ac_ncomp _ _ A M4) as (N1 & N2 & N3 & N4).
  set (low := if (p_model p =? 1) && (p_low p <? 2) then 2 else p_low p) in *.
  set (upp := if (p_model p =? 1) && (p_upp p <? 2) then 2 else p_upp p) in *.
  assert (Hlow : p_model p <> 1 /\ low = p_low p \/ p_model p = 1 /\ low = Z.max 2 (p_low p)).
  { unfold low. destruct ((p_model p =? 1) && (p_low p <? 2)) eqn:X; lia. }
  assert (Hupp : p_model p <> 1 /\ upp = p_upp p \/ p_model p = 1 /\ upp = Z.max 2 (p_upp p)).
  { unfold upp. destruct ((p_model p =? 1) && (p_upp p <? 2)) eqn:X; lia. }
  clearbody low upp.
  rewrite pick_false.
  2:{ apply A2. intros M. pose proof (ac_pmap _ _ A). destruct (p_str_lag p); [exfalso; apply H0; [lia|reflexivity]|reflexivity]. }
  assert (HH : 1 <= low <= upp) by (destruct Hlow as [[M ->]|[M ->]], Hupp as [[M' ->]|[M' ->]]; lia).
  rewrite pick_false by lia. rewrite pick_false by lia. rewrite pick_false by lia.
  rewrite pick_false.
  2:{ apply A2. intros ->. destruct Hlow as [[M ->]|[M ->]], Hupp as [[M' ->]|[M' ->]]; try lia. }
  rewrite pick_false by (pose proof (ac_rec _ _ A M4); lia).
  set (prior := if upp =? 1 then 0 else if p_model p =? 1 then 4 else p_prior p).
  assert (Hp : 0 <= prior <= 4 /\ (prior = 2 \/ prior = 3 -> 3 <= low)).
  { unfold prior. destruct (upp =? 1) eqn:U; [lia|]. destruct (p_model p =? 1) eqn:M; [lia|].
    destruct (ac_prior _ _ A M4); try lia. }
  clearbody prior. rewrite pick_false by lia. rewrite pick_false by lia.
  pose proof (ac_trend _ _ A M4). rewrite pick_false by lia. rewrite pick_false by lia.
  rewrite pick_false.
  2:{ apply A2. intros M. destruct (nlt (p_lag_low p) (Num 0)) eqn:L; [|reflexivity].
      apply nlt_less in L. exfalso. apply (ac_pos _ _ A M4); [lia|exact L]. }
  rewrite pick_false by lia.
  rewrite pick_false by (pose proof (ac_neg _ _ A M4); lia).
  rewrite pick_false by (pose proof (ac_pos_tf _ _ A M4); lia).
  rewrite pick_false by (pose proof (ac_unif _ _ A M4); lia).
  destruct (p_model p =? 3) eqn:M3; [|eauto].
  destruct (ac_mix _ _ A) as [L X]; [lia|]. destruct (p_mix p) as [|c m] eqn:Em; [simpl in L; lia|].
  rewrite pick_false by (cbn [List.length] in *; lia).
  rewrite pick_false by (apply mix_ok; exact X). eauto.
Qed.

Theorem par_check_exit : forall lp p, ~ acceptable lp p -> par_check lp p = Exit.
Proof.
  intros lp p N. destruct (par_check lp p) as [q| | |] eqn:E.
  - apply par_check_sound in E. tauto.
  - reflexivity.
  - exfalso. unfold par_check in E.
    repeat match type of E with (if ?b then _ else _) = _ => destruct b; try discriminate E end.
    all: destruct (p_mix p); repeat match type of E with (if ?b then _ else _) = _ => destruct b; try discriminate E end; discriminate E.
  - exfalso. unfold par_check in E.
    repeat match type of E with (if ?b then _ else _) = _ => destruct b; try discriminate E end.
    all: destruct (p_mix p); repeat match type of E with (if ?b then _ else _) = _ => destruct b; try discriminate E end; discriminate E.
Qed.

(** ** Values by tag *)
(** A number of components may be given under its new or its old name; the
    later one wins when both are. *)
Definition alias_value (atof : word -> num) (ss : list (word * word)) (new old : string) (d z : Z) : Prop :=
  match given ss (w_of new), given ss (w_of old) with
  | None, None => z = d
  | Some v, None | None, Some v => to_int (atof v) = Ok z
  | Some v, Some w => to_int (atof v) = Ok z \/ to_int (atof w) = Ok z
  end.
Record raw (atof : word -> num) (ss : list (word * word)) (p : parset) : Prop :=
  { rw_model : int_value to_int atof ss "TypeModel" 0 (p_model p);
    rw_ll : p_lag_low p = dbl_value atof ss "LagLimitLow" (Num 0);
    rw_lu : p_lag_upp p = dbl_value atof ss "LagLimitUpp" (Num (-1));
    rw_wl : p_wid_low p = dbl_value atof ss "WidthLimitLow" DMAX;
    rw_wu : p_wid_upp p = dbl_value atof ss "WidthLimitUpp" DMAX;
    rw_low : alias_value atof ss "NumCompLow" "NumGaussianLow" 1 (p_low p);
    rw_upp : alias_value atof ss "NumCompUpp" "NumGaussianUpp" 1 (p_upp p);
    rw_prior : int_value to_int atof ss "TypeLagPrior" 0 (p_prior p);
    rw_sl : p_str_lag p = str_value ss "StrLagPrior" [];
    rw_rec : int_value to_int atof ss "NumPointRec" 200 (p_nd_rec p);
    rw_trend : int_value to_int atof ss "FlagLongtermTrend" 0 (p_trend p);
    rw_pos : int_value to_int atof ss "FlagLagPositivity" 0 (p_pos p);
    rw_neg : int_value to_int atof ss "FlagNegativeResp" 0 (p_neg p);
    rw_tf : int_value to_int atof ss "TypeTF" 0 (p_tf p);
    rw_unif : int_value to_int atof ss "FlagUniformTranFuns" 0 (p_unif_tf p);
    rw_mix : p_mix p = str_value ss "StrTypeTFMix" [] }.

Section Alias.
Variable atof : word -> num.
Variable ss : list (word * word).
Hypothesis W1 : NoDup (map fst ss).
Hypothesis W2 : incl (map fst ss) (map e_tag par_dict).
Hypothesis Hd : Forall (decodes atof par_dict) ss.

(** The last setting for an address decides. *)
Lemma field_after_last : forall dict a ss0 x,
  (field_after atof dict a x ss0 = x /\ forall t v e, In (t, v) ss0 -> entry_of dict t = Some e -> e_addr e <> a) \/
  exists t v e, In (t, v) ss0 /\ entry_of dict t = Some e /\ e_addr e = a /\
    field_after atof dict a x ss0 = match decode atof (e_ty e) v with Ok y => Some y | _ => None end.
Proof.
  intros dict a ss0. induction ss0 as [|[t v] r IH]; intros x; [left; split; [reflexivity|intros ? ? ? []]|].
  change (field_after atof dict a x ((t, v) :: r)) with (field_after atof dict a (field_after atof dict a x [(t, v)]) r).
  destruct (IH (field_after atof dict a x [(t, v)])) as [[E H]|(t' & v' & e' & H1 & H2 & H3 & H4)].
  - rewrite E. unfold field_after. simpl. destruct (entry_of dict t) as [e|] eqn:Ee.
    + destruct (Nat.eqb_spec (e_addr e) a).
      * right. exists t, v, e. auto.
      * left. split; [reflexivity|]. intros t' v' e' [X|X] Y; [|apply (H t' v' e' X Y)]. congruence.
    + left. split; [reflexivity|]. intros t' v' e' [X|X] Y; [congruence|apply (H t' v' e' X Y)].
  - right. exists t', v', e'. split; [right; exact H1|]. auto.
Qed.

Lemma field_alias : forall fs dflt k1 k2 new old a d,
  (forall a, nth_error fs a = field_after atof par_dict a (nth_error dflt a) ss) ->
  nth_error par_dict k1 = Some (mkentry (w_of new) INT a) ->
  nth_error par_dict k2 = Some (mkentry (w_of old) INT a) ->
  forallb (fun e => negb (Nat.eqb (e_addr e) a) || weqb (e_tag e) (w_of new) || weqb (e_tag e) (w_of old)) par_dict = true ->
  nth_error dflt a = Some (VI d) ->
  exists z, (v <- get fs a ;; as_int v) = Ok z /\ alias_value atof ss new old d z.
Proof.
  intros fs dflt k1 k2 new old a d Hf K1 K2 Hu Ha. unfold get. rewrite Hf. rewrite Ha.
  pose proof (entry_of_nth par_dict par_dict_nodup (w_of new) k1 _ K1 eq_refl) as N1.
  pose proof (entry_of_nth par_dict par_dict_nodup (w_of old) k2 _ K2 eq_refl) as N2.
  destruct (field_after_last par_dict a ss (Some (VI d))) as [[E H]|(t & v & e & H1 & H2 & H3 & H4)].
  - rewrite E. exists d. split; [reflexivity|]. unfold alias_value.
    destruct (given ss (w_of new)) eqn:G1; [exfalso; apply given_some in G1; apply (H _ _ _ G1 N1); reflexivity|].
    destruct (given ss (w_of old)) eqn:G2; [exfalso; apply given_some in G2; apply (H _ _ _ G2 N2); reflexivity|].
    reflexivity.
  - rewrite H4. rewrite Forall_forall in Hd. pose proof (Hd _ H1) as D. unfold decodes in D. cbn [fst snd] in D. rewrite H2 in D.
    destruct D as [y Dy]. rewrite Dy.
    assert (In e par_dict /\ e_tag e = t) as [He Ht].
    { unfold entry_of in H2. apply find_some in H2 as [X1 X2]. apply weqb_eq in X2. auto. }
    rewrite forallb_forall in Hu. specialize (Hu e He). rewrite H3, Nat.eqb_refl in Hu. simpl in Hu.
    rewrite orb_true_iff, !weqb_eq, Ht in Hu. unfold alias_value.
    destruct Hu as [-> | ->].
    + rewrite N1 in H2. injection H2 as <-. simpl in Dy. destruct (to_int (atof v)) as [z| | |] eqn:Ez; try discriminate.
      injection Dy as <-. exists z. split; [reflexivity|].
      rewrite (given_in ss _ v W1 H1). destruct (given ss (w_of old)); auto.
    + rewrite N2 in H2. injection H2 as <-. simpl in Dy. destruct (to_int (atof v)) as [z| | |] eqn:Ez; try discriminate.
      injection Dy as <-. exists z. split; [reflexivity|].
      rewrite (given_in ss _ v W1 H1). destruct (given ss (w_of new)); auto.
Qed.
End Alias.

Theorem read_parset_spec : forall atof lp f, plain f ->
  let ss := settings par_comment f in
  well_formed (map e_tag par_dict) ss -> Forall (decodes atof par_dict) ss ->
  exists p, raw atof ss p /\ read_parset atof lp f = par_check lp p.
Proof.
  intros atof lp f Hp ss W Hd.
  destruct (read_file atof par_comment par_dict f par_dflt) as [st| | |] eqn:E.
  2-4: exfalso.
  2-4: pose proof (fold_assign atof par_dict par_dict_nodup ss (mkrs (map (fun _ => false) par_dict) par_dflt) []
         (marks_init par_dict) par_addr Hd) as [F _];
       rewrite read_file_settings in E by exact Hp; destruct F as (st & F & _); [split; [exact W|intros ? ? []]|];
       fold ss in E; rewrite F in E; discriminate.
  pose proof E as R. apply (read_file_ok atof par_dict par_dict_nodup par_comment f par_dflt st Hp par_addr) in R.
  destruct R as (_ & _ & _ & _ & Hf). fold ss in Hf. destruct W as [W1 W2].
  pose proof (field_int atof par_dict par_dict_nodup ss W1 W2 Hd (fields st) par_dflt Hf 2 "TypeModel" 2 _ eq_refl eq_refl eq_refl) as (z1 & E1 & H1).
  pose proof (field_dbl atof par_dict par_dict_nodup ss W1 W2 (fields st) par_dflt Hf 8 "LagLimitLow" 8 _ eq_refl eq_refl eq_refl) as E2.
  pose proof (field_dbl atof par_dict par_dict_nodup ss W1 W2 (fields st) par_dflt Hf 9 "LagLimitUpp" 9 _ eq_refl eq_refl eq_refl) as E3.
  pose proof (field_dbl atof par_dict par_dict_nodup ss W1 W2 (fields st) par_dflt Hf 10 "WidthLimitLow" 10 DMAX eq_refl eq_refl eq_refl) as E4.
  pose proof (field_dbl atof par_dict par_dict_nodup ss W1 W2 (fields st) par_dflt Hf 11 "WidthLimitUpp" 11 DMAX eq_refl eq_refl eq_refl) as E5.
  pose proof (field_alias atof ss W1 Hd (fields st) par_dflt 14 12 "NumCompLow" "NumGaussianLow" 12 _ Hf eq_refl eq_refl eq_refl eq_refl) as (z6 & E6 & H6).
  pose proof (field_alias atof ss W1 Hd (fields st) par_dflt 15 13 "NumCompUpp" "NumGaussianUpp" 13 _ Hf eq_refl eq_refl eq_refl eq_refl) as (z7 & E7 & H7).
  pose proof (field_int atof par_dict par_dict_nodup ss W1 W2 Hd (fields st) par_dflt Hf 18 "TypeLagPrior" 16 _ eq_refl eq_refl eq_refl) as (z8 & E8 & H8).
  pose proof (field_str atof par_dict par_dict_nodup ss W1 W2 Hd (fields st) par_dflt Hf 19 "StrLagPrior" 17 _ eq_refl eq_refl eq_refl) as E9.
  pose proof (field_int atof par_dict par_dict_nodup ss W1 W2 Hd (fields st) par_dflt Hf 35 "NumPointRec" 33 _ eq_refl eq_refl eq_refl) as (z10 & E10 & H10).
  pose proof (field_int atof par_dict par_dict_nodup ss W1 W2 Hd (fields st) par_dflt Hf 6 "FlagLongtermTrend" 6 _ eq_refl eq_refl eq_refl) as (z11 & E11 & H11).
  pose proof (field_int atof par_dict par_dict_nodup ss W1 W2 Hd (fields st) par_dflt Hf 24 "FlagLagPositivity" 22 _ eq_refl eq_refl eq_refl) as (z12 & E12 & H12).
  pose proof (field_int atof par_dict par_dict_nodup ss W1 W2 Hd (fields st) par_dflt Hf 7 "FlagNegativeResp" 7 _ eq_refl eq_refl eq_refl) as (z13 & E13 & H13).
  pose proof (field_int atof par_dict par_dict_nodup ss W1 W2 Hd (fields st) par_dflt Hf 22 "TypeTF" 20 _ eq_refl eq_refl eq_refl) as (z14 & E14 & H14).
  pose proof (field_int atof par_dict par_dict_nodup ss W1 W2 Hd (fields st) par_dflt Hf 5 "FlagUniformTranFuns" 5 _ eq_refl eq_refl eq_refl) as (z15 & E15 & H15).
  pose proof (field_str atof par_dict par_dict_nodup ss W1 W2 Hd (fields st) par_dflt Hf 23 "StrTypeTFMix" 21 _ eq_refl eq_refl eq_refl) as E16.
  eexists. split; cycle 1.
  - unfold read_parset. rewrite E. cbn [bind]. unfold par_fields.
    rewrite E1. cbn [bind]. rewrite E2. cbn [bind]. rewrite E3. cbn [bind]. rewrite E4. cbn [bind]. rewrite E5. cbn [bind].
    rewrite E6. cbn [bind]. rewrite E7. cbn [bind]. rewrite E8. cbn [bind]. rewrite E9. cbn [bind]. rewrite E10. cbn [bind].
    rewrite E11. cbn [bind]. rewrite E12. cbn [bind]. rewrite E13. cbn [bind]. rewrite E14. cbn [bind]. rewrite E15. cbn [bind].
    rewrite E16. cbn [bind]. reflexivity.
  - constructor; try reflexivity; assumption.
Qed.
Lemma read_parset_ok_wf : forall atof lp f q, plain f -> read_parset atof lp f = Ok q ->
  well_formed (map e_tag par_dict) (settings par_comment f) /\ Forall (decodes atof par_dict) (settings par_comment f).
Proof.
  intros atof lp f q Hp H. unfold read_parset in H.
  destruct (read_file atof par_comment par_dict f par_dflt) as [st| | |] eqn:E; try discriminate.
  apply (read_file_ok atof par_dict par_dict_nodup par_comment f par_dflt st Hp par_addr) in E.
  split; apply E.
Qed.
