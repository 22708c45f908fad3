(** options_load and read_parset in terms of the settings in the file. *)
From Coq Require Import ZArith QArith List Bool Lia Ascii String Permutation.
From Verif Require Import CPrelude TagModel TagSpec TagProofs ParsetModel.
Import ListNotations.
Open Scope nat_scope.

Fixpoint nodupb (l : list word) : bool :=
  match l with [] => true | a :: r => negb (existsb (weqb a) r) && nodupb r end.
Lemma nodupb_ok : forall l, nodupb l = true -> NoDup l.
Proof.
  induction l as [|a l IH]; simpl; intros H; [constructor|]. apply andb_true_iff in H as [H1 H2].
  constructor; [|apply IH, H2]. intros X. apply negb_true_iff in H1.
  assert (existsb (weqb a) l = true) by (apply existsb_exists; exists a; split; [exact X|apply weqb_refl]). congruence.
Qed.
Lemma opt_dict_nodup : NoDup (map e_tag opt_dict).
Proof. apply nodupb_ok. vm_compute. reflexivity. Qed.
Lemma par_dict_nodup : NoDup (map e_tag par_dict).
Proof. apply nodupb_ok. vm_compute. reflexivity. Qed.

Lemma given_some : forall ss t v, given ss t = Some v -> In (t, v) ss.
Proof.
  intros ss t v. unfold given. destruct (find (fun s => if list_eq_dec ascii_dec (fst s) t then true else false) ss) as [[t' v']|] eqn:F; [|discriminate].
  intros [= <-]. apply find_some in F as [H1 H2]. simpl in H2. destruct (list_eq_dec ascii_dec t' t); [subst; exact H1|discriminate].
Qed.
Lemma given_none : forall ss t, given ss t = None -> ~ In t (map fst ss).
Proof.
  intros ss t. unfold given. destruct (find (fun s => if list_eq_dec ascii_dec (fst s) t then true else false) ss) as [[t' v']|] eqn:F; [discriminate|].
  intros _ H. apply in_map_iff in H as ([t1 v1] & <- & H). pose proof (find_none _ _ F _ H) as X. simpl in X.
  destruct (list_eq_dec ascii_dec t1 t1); [discriminate|congruence].
Qed.
Lemma given_in : forall ss t v, NoDup (map fst ss) -> In (t, v) ss -> given ss t = Some v.
Proof.
  intros ss t v Hd H. destruct (given ss t) as [v'|] eqn:G.
  - apply given_some in G. f_equal. clear - Hd H G. induction ss as [|[t1 v1] ss IH]; [destruct H|].
    simpl in Hd. apply NoDup_cons_iff in Hd as [N Hd]. destruct H as [H|H], G as [G|G].
    + congruence.
    + injection H as -> ->. exfalso. apply N. change t with (fst (t, v')). apply in_map, G.
    + injection G as -> ->. exfalso. apply N. change t with (fst (t, v)). apply in_map, H.
    + apply IH; auto.
  - apply given_none in G. exfalso. apply G. change t with (fst (t, v)). apply in_map, H.
Qed.

Section Given.
Variable atof : word -> num.
Variable dict : list entry.
Hypothesis Hdict : NoDup (map e_tag dict).
(** A field with a single tag. *)
Lemma field_after_given : forall ss x e, In e dict -> NoDup (map fst ss) -> incl (map fst ss) (map e_tag dict) ->
  (forall e', In e' dict -> e_addr e' = e_addr e -> e_tag e' = e_tag e) ->
  field_after atof dict (e_addr e) x ss =
  match given ss (e_tag e) with
  | Some v => match decode atof (e_ty e) v with Ok y => Some y | _ => None end
  | None => x
  end.
Proof.
  intros ss x e Hin Hd Hi Hu. apply In_nth_error in Hin as [i Hi'].
  assert (He : entry_of dict (e_tag e) = Some e) by (eapply entry_of_nth; eauto).
  assert (Hu' : forall t' v' e', In (t', v') ss -> entry_of dict t' = Some e' -> e_addr e' = e_addr e -> t' = e_tag e).
  { intros t' v' e' H' E' X. unfold entry_of in E'. apply find_some in E' as [E1 E2]. apply weqb_eq in E2.
    subst t'. apply Hu; auto. }
  destruct (given ss (e_tag e)) as [v|] eqn:G.
  - apply given_some in G. rewrite (field_after_one atof dict (e_addr e) ss x (e_tag e) v e); auto.
  - apply given_none in G. apply field_after_none. intros t v e' H' E' X. apply G.
    rewrite <- (Hu' t v e' H' E' X). change t with (fst (t, v)). apply in_map, H'.
Qed.
Lemma decodes_given : forall ss e v, Forall (decodes atof dict) ss -> In e dict ->
  given ss (e_tag e) = Some v -> exists y, decode atof (e_ty e) v = Ok y.
Proof.
  intros ss e v Hd Hin G. apply given_some in G. rewrite Forall_forall in Hd. specialize (Hd _ G).
  apply In_nth_error in Hin as [i Hi]. unfold decodes in Hd. simpl in Hd.
  rewrite (entry_of_nth dict Hdict (e_tag e) i e Hi eq_refl) in Hd. exact Hd.
Qed.
End Given.

(** Typed values by tag, with a default. *)
Definition dbl_value (atof : word -> num) (ss : list (word * word)) (tag : string) (d : num) : num :=
  match given ss (w_of tag) with Some v => atof v | None => d end.
Definition str_value (ss : list (word * word)) (tag : string) (d : word) : word :=
  match given ss (w_of tag) with Some v => v | None => d end.
(** An integer option holds [z]: its word converts to [z], or it is the default. *)
Definition int_value (conv : num -> outcome Z) (atof : word -> num) (ss : list (word * word)) (tag : string) (d z : Z) : Prop :=
  match given ss (w_of tag) with Some v => conv (atof v) = Ok z | None => z = d end.

Lemma addr_uniqueb : forall dict e,
  forallb (fun e' => negb (Nat.eqb (e_addr e') (e_addr e)) || weqb (e_tag e') (e_tag e)) dict = true ->
  forall e', In e' dict -> e_addr e' = e_addr e -> e_tag e' = e_tag e.
Proof.
  intros dict e H e' Hin Ha. rewrite forallb_forall in H. specialize (H e' Hin). rewrite Ha, Nat.eqb_refl in H. simpl in H.
  apply weqb_eq, H.
Qed.
Lemma addr_in_range : forall dict (n : nat), forallb (fun e => e_addr e <? n) dict = true -> forall e, In e dict -> e_addr e < n.
Proof. intros dict n H e He. rewrite forallb_forall in H. apply Nat.ltb_lt, H, He. Qed.

(** Reading off a field of a known type. *)
Ltac nth_in k := match goal with |- In _ ?d => apply (nth_error_In d k); reflexivity end.

Section Fields.
Variable atof : word -> num.
Variable dict : list entry.
Hypothesis Hdict : NoDup (map e_tag dict).
Variable ss : list (word * word).
Hypothesis Hss : NoDup (map fst ss).
Hypothesis Hincl : incl (map fst ss) (map e_tag dict).
Hypothesis Hdec : Forall (decodes atof dict) ss.
Variable fs dflt : list val.
Hypothesis Hfs : forall a, nth_error fs a = field_after atof dict a (nth_error dflt a) ss.

Lemma field_dbl : forall k tag a d, nth_error dict k = Some (mkentry (w_of tag) DOUBLE a) ->
  forallb (fun e' => negb (Nat.eqb (e_addr e') a) || weqb (e_tag e') (w_of tag)) dict = true ->
  nth_error dflt a = Some (VD d) -> (v <- get fs a ;; as_num v) = Ok (dbl_value atof ss tag d).
Proof.
  intros k tag a d Hk Hu Hd. set (e := mkentry (w_of tag) DOUBLE a). unfold get. rewrite Hfs.
  change a with (e_addr e) at 1. rewrite (field_after_given atof dict Hdict ss _ e).
  - unfold dbl_value. simpl. destruct (given ss (w_of tag)); simpl; [reflexivity|]. rewrite Hd. reflexivity.
  - eapply nth_error_In; exact Hk.
  - exact Hss.
  - exact Hincl.
  - apply addr_uniqueb. exact Hu.
Qed.
Lemma field_str : forall k tag a d, nth_error dict k = Some (mkentry (w_of tag) STRING a) ->
  forallb (fun e' => negb (Nat.eqb (e_addr e') a) || weqb (e_tag e') (w_of tag)) dict = true ->
  nth_error dflt a = Some (VS d) -> (v <- get fs a ;; as_str v) = Ok (str_value ss tag d).
Proof.
  intros k tag a d Hk Hu Hd. set (e := mkentry (w_of tag) STRING a). unfold get. rewrite Hfs.
  change a with (e_addr e) at 1. rewrite (field_after_given atof dict Hdict ss _ e).
  - unfold str_value. simpl. destruct (given ss (w_of tag)) as [v|] eqn:G; simpl; [|rewrite Hd; reflexivity].
    destruct (decodes_given atof dict Hdict ss e v Hdec) as [y Hy].
    + eapply nth_error_In; exact Hk.
    + exact G.
    + simpl in Hy. destruct (List.length v <? 256); [reflexivity|discriminate].
  - eapply nth_error_In; exact Hk.
  - exact Hss.
  - exact Hincl.
  - apply addr_uniqueb. exact Hu.
Qed.
Lemma field_int : forall k tag a d, nth_error dict k = Some (mkentry (w_of tag) INT a) ->
  forallb (fun e' => negb (Nat.eqb (e_addr e') a) || weqb (e_tag e') (w_of tag)) dict = true ->
  nth_error dflt a = Some (VI d) -> exists z, (v <- get fs a ;; as_int v) = Ok z /\ int_value to_int atof ss tag d z.
Proof.
  intros k tag a d Hk Hu Hd. set (e := mkentry (w_of tag) INT a). unfold get. rewrite Hfs.
  change a with (e_addr e) at 1. rewrite (field_after_given atof dict Hdict ss _ e).
  - unfold int_value. simpl. destruct (given ss (w_of tag)) as [v|] eqn:G; simpl; [|rewrite Hd; exists d; split; reflexivity].
    destruct (decodes_given atof dict Hdict ss e v Hdec) as [y Hy].
    + eapply nth_error_In; exact Hk.
    + exact G.
    + simpl in Hy. destruct (to_int (atof v)) as [z| | |]; try discriminate. exists z. split; reflexivity.
  - eapply nth_error_In; exact Hk.
  - exact Hss.
  - exact Hincl.
  - apply addr_uniqueb. exact Hu.
Qed.
Lemma field_uint : forall k tag a d, nth_error dict k = Some (mkentry (w_of tag) UINT a) ->
  forallb (fun e' => negb (Nat.eqb (e_addr e') a) || weqb (e_tag e') (w_of tag)) dict = true ->
  nth_error dflt a = Some (VI d) -> exists z, (v <- get fs a ;; as_int v) = Ok z /\ int_value to_uint atof ss tag d z.
Proof.
  intros k tag a d Hk Hu Hd. set (e := mkentry (w_of tag) UINT a). unfold get. rewrite Hfs.
  change a with (e_addr e) at 1. rewrite (field_after_given atof dict Hdict ss _ e).
  - unfold int_value. simpl. destruct (given ss (w_of tag)) as [v|] eqn:G; simpl; [|rewrite Hd; exists d; split; reflexivity].
    destruct (decodes_given atof dict Hdict ss e v Hdec) as [y Hy].
    + eapply nth_error_In; exact Hk.
    + exact G.
    + simpl in Hy. destruct (to_uint (atof v)) as [z| | |]; try discriminate. exists z. split; reflexivity.
  - eapply nth_error_In; exact Hk.
  - exact Hss.
  - exact Hincl.
  - apply addr_uniqueb. exact Hu.
Qed.
End Fields.

(** ** options_load *)
Lemma opt_addr : forall e, In e opt_dict -> e_addr e < List.length opt_dflt.
Proof. apply addr_in_range. vm_compute. reflexivity. Qed.
Lemma par_addr : forall e, In e par_dict -> e_addr e < List.length par_dflt.
Proof. apply addr_in_range. vm_compute. reflexivity. Qed.

Lemma bind_assoc : forall {A B C} (x : outcome A) (f : A -> outcome B) (g : B -> outcome C),
  (b <- (a <- x ;; f a) ;; g b) = (a <- x ;; b <- f a ;; g b).
Proof. intros. destruct x; reflexivity. Qed.

(** The arithmetic at the end of options_load. *)
Definition opt_derive (np : Z) (nlif sif tsf : num) (maxl : Z) (lam beta : num) (maxs : Z) (ptol : num)
  (num_params totaltask : Z) : outcome options :=
  ts <- to_uint (qmul (qmul tsf (inject_Z num_params)) (inject_Z np)) ;;
  nli <- to_uint (qmul nlif (inject_Z (u32 (totaltask * ts)))) ;;
  si <- to_uint (qmul sif (inject_Z (u32 (totaltask * ts)))) ;;
  if (nli <? u32 (totaltask * ts))%Z then Exit else
  Ok (mkopts np nlif sif tsf maxl lam beta maxs ptol ts nli si).

Theorem options_load_spec : forall atof f num_params totaltask, plain f ->
  let ss := settings opt_comment f in
  well_formed (map e_tag opt_dict) ss -> Forall (decodes atof opt_dict) ss ->
  exists np maxl maxs,
    int_value to_uint atof ss "NumberParticles" 1 np /\
    int_value to_uint atof ss "MaxNumberLevels" 0 maxl /\
    int_value to_uint atof ss "MaxNumberSaves" 10000 maxs /\
    let nlif := dbl_value atof ss "NewLevelIntervalFactor" (Num 2) in
    options_load atof f num_params totaltask =
    opt_derive np nlif (dbl_value atof ss "SaveIntervalFactor" nlif)
      (dbl_value atof ss "ThreadStepsFactor" (Num 10)) maxl
      (dbl_value atof ss "BacktrackingLength" (Num 10)) (dbl_value atof ss "StrengthEqualPush" (Num 100))
      maxs (dbl_value atof ss "PTol" (Num (1#10))) num_params totaltask.
Proof.
  intros atof f num_params totaltask Hp ss W Hd.
  destruct (read_file atof opt_comment opt_dict f opt_dflt) as [st| | |] eqn:E.
  2-4: exfalso.
  2-4: pose proof (fold_assign atof opt_dict opt_dict_nodup ss (mkrs (map (fun _ => false) opt_dict) opt_dflt) []
         (marks_init opt_dict) opt_addr Hd) as [F _];
       rewrite read_file_settings in E by exact Hp; destruct F as (st & F & _); [split; [exact W|intros ? ? []]|];
       fold ss in E; rewrite F in E; discriminate.
  pose proof E as R. apply (read_file_ok atof opt_dict opt_dict_nodup opt_comment f opt_dflt st Hp opt_addr) in R.
  destruct R as (_ & _ & [Ml Mk] & _ & Hf). fold ss in Mk, Hf. destruct W as [W1 W2].
  pose proof (field_uint atof opt_dict opt_dict_nodup ss W1 W2 Hd (fields st) opt_dflt Hf 0 "NumberParticles" 0 1 eq_refl eq_refl eq_refl) as (np & E0 & H0).
  pose proof (field_dbl atof opt_dict opt_dict_nodup ss W1 W2 (fields st) opt_dflt Hf 1 "NewLevelIntervalFactor" 1 _ eq_refl eq_refl eq_refl) as E1.
  pose proof (field_dbl atof opt_dict opt_dict_nodup ss W1 W2 (fields st) opt_dflt Hf 2 "SaveIntervalFactor" 2 _ eq_refl eq_refl eq_refl) as E2.
  pose proof (field_dbl atof opt_dict opt_dict_nodup ss W1 W2 (fields st) opt_dflt Hf 3 "ThreadStepsFactor" 3 _ eq_refl eq_refl eq_refl) as E3.
  pose proof (field_uint atof opt_dict opt_dict_nodup ss W1 W2 Hd (fields st) opt_dflt Hf 4 "MaxNumberLevels" 4 _ eq_refl eq_refl eq_refl) as (maxl & E4 & H4).
  pose proof (field_dbl atof opt_dict opt_dict_nodup ss W1 W2 (fields st) opt_dflt Hf 5 "BacktrackingLength" 5 _ eq_refl eq_refl eq_refl) as E5.
  pose proof (field_dbl atof opt_dict opt_dict_nodup ss W1 W2 (fields st) opt_dflt Hf 6 "StrengthEqualPush" 6 _ eq_refl eq_refl eq_refl) as E6.
  pose proof (field_uint atof opt_dict opt_dict_nodup ss W1 W2 Hd (fields st) opt_dflt Hf 7 "MaxNumberSaves" 7 _ eq_refl eq_refl eq_refl) as (maxs & E7 & H7).
  pose proof (field_dbl atof opt_dict opt_dict_nodup ss W1 W2 (fields st) opt_dflt Hf 8 "PTol" 8 _ eq_refl eq_refl eq_refl) as E8.
  exists np, maxl, maxs. split; [exact H0|]. split; [exact H4|]. split; [exact H7|]. cbv zeta.
  unfold options_load. rewrite E. cbn [bind].
  rewrite <- bind_assoc, E0. cbn [bind]. rewrite <- bind_assoc, E1. cbn [bind]. rewrite <- bind_assoc, E2. cbn [bind].
  rewrite <- bind_assoc, E3. cbn [bind]. rewrite <- bind_assoc, E4. cbn [bind]. rewrite <- bind_assoc, E5. cbn [bind].
  rewrite <- bind_assoc, E6. cbn [bind]. rewrite <- bind_assoc, E7. cbn [bind]. rewrite <- bind_assoc, E8. cbn [bind].
  specialize (Mk 2 (mkentry (w_of "SaveIntervalFactor") DOUBLE 2) eq_refl). rewrite <- in_rev in Mk.
  unfold get. destruct (nth_error (isset st) 2) as [b|] eqn:Eb.
  2:{ exfalso. apply nth_error_None in Eb. rewrite Ml in Eb. simpl in Eb. lia. }
  cbn [bind]. unfold opt_derive.
  assert (Es : (if b then dbl_value atof ss "SaveIntervalFactor" (Num 2)
                else dbl_value atof ss "NewLevelIntervalFactor" (Num 2)) =
               dbl_value atof ss "SaveIntervalFactor" (dbl_value atof ss "NewLevelIntervalFactor" (Num 2))).
  { unfold dbl_value at 1 3. destruct (given ss (w_of "SaveIntervalFactor")) as [v|] eqn:G.
    - assert (b = true) as ->; [|reflexivity].
      assert (Some b = Some true) by (apply Mk; apply given_some in G; apply (in_map fst) in G; exact G).
      congruence.
    - destruct b; [|reflexivity]. exfalso. apply given_none in G. apply G, Mk. reflexivity. }
  rewrite Es. reflexivity.
Qed.

Lemma options_load_ok_wf : forall atof f num_params totaltask o, plain f ->
  options_load atof f num_params totaltask = Ok o ->
  well_formed (map e_tag opt_dict) (settings opt_comment f) /\ Forall (decodes atof opt_dict) (settings opt_comment f).
Proof.
  intros atof f num_params totaltask o Hp H. unfold options_load in H.
  destruct (read_file atof opt_comment opt_dict f opt_dflt) as [st| | |] eqn:E; try discriminate.
  apply (read_file_ok atof opt_dict opt_dict_nodup opt_comment f opt_dflt st Hp opt_addr) in E.
  split; apply E.
Qed.
