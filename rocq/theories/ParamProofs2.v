(** Drawing and perturbing keep every parameter in its place. *)
From Coq Require Import Reals ZArith List Bool Arith Lia Lra Permutation Sorted.
From Verif Require Import CPrelude ListLemmas SemisepModel SemisepProofs CovProofs SortModel SortProofs LogXModel LogXProofs ParamModel ParamSpec ParamProofs.
Import ListNotations.
Open Scope nat_scope.

Section Slots.
Variable nset : nat.
Variable nlset : nat -> nat.
Variable ng : nat.
Variable uniform : nat.
Variable uniform_var : bool.
Notation nvar := (num_params_var nset uniform_var).
Notation per := (per_line ng).
Notation np := (num_params nset nlset ng uniform uniform_var).
Notation nlines := (nlines nset nlset uniform).
Notation line_no := (line_no nlset uniform).
Notation slot_at := (slot_at nset ng uniform_var).
Notation slot := (slot nset nlset ng uniform uniform_var).
Notation tied := (tied nset nlset ng uniform uniform_var).
Notation has_line := (has_line nset nlset).

Lemma offset_lt r : role_ok ng r -> offset r < per.
Proof. unfold per_line. destruct r; cbn; lia. Qed.
Lemma offset_inj r r' : offset r = offset r' -> r = r'.
Proof. destruct r, r'; cbn; intros; try lia; try reflexivity; f_equal; lia. Qed.
Lemma offset_onto o : o < per -> exists r, role_ok ng r /\ offset r = o.
Proof.
  unfold per_line. intros Ho. destruct o as [|o]; [exists SysErr; cbn; auto|].
  pose proof (Nat.div_mod o 3 ltac:(lia)) as E. pose proof (Nat.mod_upper_bound o 3 ltac:(lia)) as Hm.
  assert (o / 3 < ng) by (apply Nat.div_lt_upper_bound; lia).
  destruct (o mod 3) as [|[|[|x]]] eqn:Em; [exists (Amp (o / 3))|exists (Centre (o / 3))|exists (Width (o / 3))|lia]; cbn [role_ok offset]; lia.
Qed.
Lemma np_lines : np = nvar + nlines * per.
Proof. unfold num_params. rewrite npl_lines. lia. Qed.
Lemma slot_at_lt m r : m < nlines -> role_ok ng r -> nvar <= slot_at m r < np.
Proof. intros Hm Hr. apply offset_lt in Hr. rewrite np_lines. unfold ParamSpec.slot_at. nia. Qed.
Lemma slot_at_inj m r m' r' : role_ok ng r -> role_ok ng r' -> slot_at m r = slot_at m' r' -> m = m' /\ r = r'.
Proof.
  unfold ParamSpec.slot_at. intros Hr Hr' E. apply offset_lt in Hr, Hr'.
  assert (m = m') as -> by nia. split; [reflexivity|]. apply offset_inj. lia.
Qed.
Lemma slot_cases s : s < np -> s < nvar \/ exists m r, m < nlines /\ role_ok ng r /\ s = slot_at m r.
Proof.
  rewrite np_lines. intros Hs. destruct (lt_dec s nvar) as [|H]; [left; assumption|right].
  pose proof (Nat.div_mod (s - nvar) per ltac:(unfold per_line; lia)) as E.
  pose proof (Nat.mod_upper_bound (s - nvar) per ltac:(unfold per_line; lia)) as Hm.
  destruct (offset_onto _ Hm) as (r & Hr & Hor). exists ((s - nvar) / per), r.
  split; [apply Nat.div_lt_upper_bound; [unfold per_line; lia|nia]|]. split; [exact Hr|].
  unfold ParamSpec.slot_at. rewrite Hor. nia.
Qed.

Lemma rem_slot m r : role_ok ng r ->
  Z.rem (Z.of_nat (slot_at m r) - Z.of_nat nvar) (Z.of_nat per) = Z.of_nat (offset r).
Proof.
  intros Hr. apply offset_lt in Hr.
  replace (Z.of_nat (slot_at m r) - Z.of_nat nvar)%Z with (Z.of_nat (offset r + m * per)) by (unfold ParamSpec.slot_at; lia).
  rewrite Z.rem_mod_nonneg by lia. rewrite <- Nat2Z.inj_mod. f_equal.
  rewrite Nat.mod_add by lia. apply Nat.mod_small. exact Hr.
Qed.
Definition is_centre (r : role) : bool := match r with Centre _ => true | _ => false end.
Lemma check_centre m r : role_ok ng r ->
  fst (check_gauss_center nset ng uniform_var (slot_at m r)) = is_centre r /\
  (forall k, r = Centre k -> snd (check_gauss_center nset ng uniform_var (slot_at m r)) = Z.of_nat k).
Proof.
  intros Hr. unfold check_gauss_center. cbv zeta. rewrite rem_slot by exact Hr. cbn [fst snd].
  destruct r as [|k|k|k]; cbn [offset is_centre].
  - split; [reflexivity|discriminate].
  - replace (Z.of_nat (1 + 3 * k) - 1)%Z with (0 + Z.of_nat k * 3)%Z by lia. rewrite Z.rem_mod_nonneg, Z.mod_add by lia. split; [reflexivity|discriminate].
  - replace (Z.of_nat (2 + 3 * k) - 1)%Z with (1 + Z.of_nat k * 3)%Z by lia. rewrite Z.rem_mod_nonneg, Z.mod_add by lia. split; [reflexivity|].
    intros k' [= <-]. rewrite Z.quot_div_nonneg, Z.div_add by lia. change (1 / 3)%Z with 0%Z. lia.
  - replace (Z.of_nat (3 + 3 * k) - 1)%Z with (2 + Z.of_nat k * 3)%Z by lia. rewrite Z.rem_mod_nonneg, Z.mod_add by lia. split; [reflexivity|discriminate].
Qed.
Lemma idx_param m r : role_ok ng r -> get_idx_param nset ng uniform_var (slot_at m r)
  = match r with SysErr => -1 | Amp _ => 0 | Centre _ => 1 | Width _ => 2 end%Z.
Proof.
  intros Hr. unfold get_idx_param. rewrite rem_slot by exact Hr.
  destruct r as [|k|k|k]; cbn [offset].
  - reflexivity.
  - replace (Z.of_nat (1 + 3 * k) - 1)%Z with (0 + Z.of_nat k * 3)%Z by lia. rewrite Z.rem_mod_nonneg, Z.mod_add by lia. reflexivity.
  - replace (Z.of_nat (2 + 3 * k) - 1)%Z with (1 + Z.of_nat k * 3)%Z by lia. rewrite Z.rem_mod_nonneg, Z.mod_add by lia. reflexivity.
  - replace (Z.of_nat (3 + 3 * k) - 1)%Z with (2 + Z.of_nat k * 3)%Z by lia. rewrite Z.rem_mod_nonneg, Z.mod_add by lia. reflexivity.
Qed.

(** ** set_center_width *)
Lemma idx_line i j : has_line i j -> read_idx (set_idx_line_pm nset nlset ng uniform uniform_var unset) i j = Ok (slot i j SysErr).
Proof.
  intros [Hi Hj]. unfold read_idx. rewrite idx_spec. apply Nat.ltb_lt in Hi, Hj. rewrite Hi, Hj. cbn [andb].
  unfold ParamSpec.slot, ParamSpec.slot_at. cbn [offset]. f_equal. lia.
Qed.
Definition copy_list (i : nat) : list (nat * nat) :=
  flat_map (fun j => flat_map (fun k => [(slot i j (Centre k), slot 0 j (Centre k)); (slot i j (Width k), slot 0 j (Width k))]) (seq 0 ng)) (seq 0 (nlset i)).
Notation idxs := (set_idx_line_pm nset nlset ng uniform uniform_var unset).
Definition fits : Prop := forall i, i < nset -> nlset i <= nlset 0.
Lemma center_width_copies pm : fits ->
  set_center_width nset nlset ng idxs pm = Ok (copies (flat_map copy_list (seq 1 (nset - 1))) pm).
Proof.
  intros Hf. unfold set_center_width. rewrite <- for_copies. apply ofor_ok. intros i s Hi.
  unfold copy_list. rewrite <- for_copies. apply ofor_ok. intros j s' Hj.
  assert (Hn : i < nset) by lia. specialize (Hf i Hn).
  rewrite (idx_line 0 j) by (split; lia). cbn [bind]. rewrite (idx_line i j) by (split; lia). cbn [bind]. f_equal.
  rewrite <- for_copies. apply for_body. intros k t Hk. cbv zeta. unfold copies. cbn [fold_left fst snd].
  unfold ParamSpec.slot, ParamSpec.slot_at. cbn [offset].
  set (a := nvar + line_no i j * per). set (b := nvar + line_no 0 j * per).
  replace (a + 0 + 1 + k * 3 + 1) with (a + (2 + 3 * k)) by lia. replace (b + 0 + 1 + k * 3 + 1) with (b + (2 + 3 * k)) by lia.
  replace (a + 0 + 1 + k * 3 + 2) with (a + (3 + 3 * k)) by lia. replace (b + 0 + 1 + k * 3 + 2) with (b + (3 + 3 * k)) by lia. reflexivity.
Qed.
Lemma copy_in s b : uniform = 2 -> (In (s, b) (flat_map copy_list (seq 1 (nset - 1))) <-> tied true s b).
Proof.
  intros Hu. rewrite in_flat_map. unfold ParamSpec.tied. split.
  - intros (i & Hi & H). apply in_seq in Hi. unfold copy_list in H. apply in_flat_map in H. destruct H as (j & Hj & H). apply in_seq in Hj.
    apply in_flat_map in H. destruct H as (k & Hk & H). apply in_seq in Hk. split; [reflexivity|]. split; [exact Hu|].
    destruct H as [H|[H|[]]]; injection H as <- <-; [exists i, j, (Centre k)|exists i, j, (Width k)];
      (split; [lia|]; split; [split; lia|]; split; [cbn; lia|]; split; [exact I|split; reflexivity]).
  - intros (_ & _ & i & j & r & Hi & [Hn Hj] & Hr & Ht & -> & ->). exists i. split; [apply in_seq; lia|].
    unfold copy_list. apply in_flat_map. exists j. split; [apply in_seq; lia|].
    destruct r as [|k|k|k]; try contradiction; apply in_flat_map; exists k; cbn in Hr; (split; [apply in_seq; lia|]); cbn; tauto.
Qed.
Lemma slot_inj i j r i' j' r' : uniform <> 1 -> role_ok ng r -> role_ok ng r' -> has_line i j -> has_line i' j' ->
  slot i j r = slot i' j' r' -> i = i' /\ j = j' /\ r = r'.
Proof.
  intros Hu Hr Hr' [Hi Hj] [Hi' Hj'] E. apply slot_at_inj in E; auto. destruct E as [E ->].
  unfold ParamSpec.line_no in E. apply Nat.eqb_neq in Hu. rewrite Hu in E. apply before_inj in E; auto. tauto.
Qed.
Lemma tied_not_source t s b b' : fits -> tied t s b -> ~ tied t b b'.
Proof.
  intros Hf (-> & Hu & i & j & r & Hi & Hl & Hr & Ht & -> & ->) (_ & _ & i' & j' & r' & Hi' & Hl' & Hr' & Ht' & E & _).
  apply slot_inj in E; auto; [lia|lia|]. destruct Hl as [Hn Hj]. specialize (Hf i Hn). split; lia.
Qed.
Lemma tied_fun t s b b' : tied t s b -> tied t s b' -> b = b'.
Proof.
  intros (-> & Hu & i & j & r & Hi & Hl & Hr & Ht & -> & ->) (_ & _ & i' & j' & r' & Hi' & Hl' & Hr' & Ht' & E & ->).
  apply slot_inj in E; auto; [|lia]. destruct E as (-> & -> & ->). reflexivity.
Qed.
Lemma tied_dec t s : {exists b, tied t s b} + {~ exists b, tied t s b}.
Proof.
  destruct t; [|right; intros (b & H & _); discriminate].
  destruct (Nat.eq_dec uniform 2) as [Hu|Hu]; [|right; intros (b & _ & H & _); contradiction].
  destruct (in_dec Nat.eq_dec s (map fst (flat_map copy_list (seq 1 (nset - 1))))) as [H|H].
  - left. apply in_map_iff in H. destruct H as ([s' b] & E & H). cbn in E. subst s'. exists b. apply (copy_in s b Hu). exact H.
  - right. intros (b & Hb). apply H. apply in_map_iff. exists (s, b). split; [reflexivity|]. apply (copy_in s b Hu). exact Hb.
Qed.
Lemma center_width_spec pm : uniform = 2 -> fits -> exists pm',
  set_center_width nset nlset ng idxs pm = Ok pm' /\
  (forall s b, tied true s b -> pm' s = pm b) /\ (forall s, ~ (exists b, tied true s b) -> pm' s = pm s).
Proof.
  intros Hu Hf. rewrite center_width_copies by exact Hf. eexists. split; [reflexivity|].
  set (L := flat_map copy_list (seq 1 (nset - 1))).
  assert (InL : forall s, In s (map fst L) <-> exists b, tied true s b).
  { intros s. rewrite in_map_iff. split.
    - intros ([s' b] & E & H). cbn in E. subst s'. exists b. apply (copy_in s b Hu). exact H.
    - intros (b & H). exists (s, b). split; [reflexivity|]. apply (copy_in s b Hu). exact H. }
  destruct (copies_spec L pm) as [A B].
  { intros [s b] Hc. cbn [snd]. rewrite InL. intros (b' & H'). apply (copy_in s b Hu) in Hc. revert H'. apply tied_not_source with s; auto. }
  split.
  - intros s b H. apply B; [apply (copy_in s b Hu); exact H|]. intros b' H'. apply (copy_in s b' Hu) in H'. apply tied_fun with true s; auto.
  - intros s H. apply A. rewrite InL. exact H.
Qed.

(** ** put_fixed *)
Lemma put_fixed_spec fx pm s : put_fixed nset nlset ng uniform uniform_var fx pm s
  = if (s <? np) && is_fixed fx s then fix_val fx s else pm s.
Proof.
  unfold put_fixed. generalize np. intros n. revert s. induction n as [|n IH]; intros s; [reflexivity|].
  rewrite for_snoc, Nat.add_0_l. destruct (Nat.eq_dec s n) as [->|Hs].
  - replace (n <? S n) with true by (symmetry; apply Nat.ltb_lt; lia). cbn [andb].
    destruct (is_fixed fx n) eqn:E; [apply upd_same|]. rewrite IH. rewrite E, andb_false_r. reflexivity.
  - replace (s <? S n) with (s <? n) by (destruct (Nat.ltb_spec s n), (Nat.ltb_spec s (S n)); try reflexivity; lia).
    destruct (is_fixed fx n); [rewrite upd_other by lia|]; apply IH.
Qed.

(** ** Sorting *)
Lemma sortR_spec l : Permutation (msort mica_cmpR l) l /\ StronglySorted Rle (msort mica_cmpR l).
Proof.
  split; [apply msort_perm|]. apply (msort_sorted mica_cmpR (fun _ => True)).
  - intros a b c _ _ _; apply Rle_trans.
  - intros a b _ _. unfold mica_cmpR. destruct (Rle_dec b a); [lia|]. intros _. lra.
  - intros a b _ _. unfold mica_cmpR. destruct (Rle_dec b a); [|lia]. auto.
  - apply Forall_forall. auto.
Qed.
Lemma sorted_nth l i j d : StronglySorted Rle l -> i <= j -> j < length l -> (nth i l d <= nth j l d)%R.
Proof.
  intros H. revert i j. induction H as [|a l Hs IH Hf]; intros i j Hij Hj; [cbn in Hj; lia|].
  destruct i as [|i], j as [|j]; cbn [nth] in *; try lia; [lra| |apply IH; cbn in Hj; lia].
  rewrite Forall_forall in Hf. apply Hf. apply nth_In. cbn in Hj. lia.
Qed.
Lemma sort_centers_spec pm (pm' := sort_centers nset nlset ng uniform uniform_var pm) :
  (forall s, (forall m k, m < nlines -> k < ng -> s <> slot_at m (Centre k)) -> pm' s = pm s) /\
  (forall m k, m < nlines -> k < ng -> pm' (slot_at m (Centre k)) = nth k (msort mica_cmpR (map (fun j => pm (slot_at m (Centre j))) (seq 0 ng))) 0%R).
Proof.
  subst pm'. unfold sort_centers. rewrite lines_iters.
  set (sorted := fun m => msort mica_cmpR (map (fun j => pm (slot_at m (Centre j))) (seq 0 ng))).
  set (body := fun m pm => _).
  assert (write : forall m q, (forall k, k < ng -> q (slot_at m (Centre k)) = pm (slot_at m (Centre k))) ->
    (forall s, (forall k, k < ng -> s <> slot_at m (Centre k)) -> body m q s = q s) /\
    (forall k, k < ng -> body m q (slot_at m (Centre k)) = nth k (sorted m) 0%R)).
  { intros m q Hq. unfold body. cbv zeta.
    assert (at_ : forall j, nvar + m * per + 1 + j * 3 + 1 = slot_at m (Centre j)) by (intros j; unfold ParamSpec.slot_at; cbn [offset]; lia).
    replace (msort mica_cmpR (map (fun j => q (nvar + m * per + 1 + j * 3 + 1)) (seq 0 ng))) with (sorted m).
    2:{ unfold sorted. f_equal. apply map_ext_in. intros j Hj. apply in_seq in Hj. rewrite at_. symmetry. apply Hq. lia. }
    assert (G : forall n, n <= ng ->
      (forall s, (forall k, k < n -> s <> slot_at m (Centre k)) -> for_ 0 n (fun j q => upd q (nvar + m * per + 1 + j * 3 + 1) (nth j (sorted m) 0%R)) q s = q s) /\
      (forall k, k < n -> for_ 0 n (fun j q => upd q (nvar + m * per + 1 + j * 3 + 1) (nth j (sorted m) 0%R)) q (slot_at m (Centre k)) = nth k (sorted m) 0%R)).
    { induction n as [|n IH]; intros Hn; [split; [reflexivity|lia]|]. destruct (IH ltac:(lia)) as [A B]. split.
      - intros s Hs. rewrite for_snoc, Nat.add_0_l, at_. rewrite upd_other by (apply Hs; lia). apply A. intros k Hk. apply Hs. lia.
      - intros k Hk. rewrite for_snoc, Nat.add_0_l, at_. destruct (Nat.eq_dec k n) as [->|Hkn]; [apply upd_same|].
        rewrite upd_other; [apply B; lia|]. unfold ParamSpec.slot_at. cbn [offset]. lia. }
    apply G. lia. }
  assert (G : forall n, n <= nlines ->
    (forall s, (forall m k, m < n -> k < ng -> s <> slot_at m (Centre k)) -> for_ 0 n body pm s = pm s) /\
    (forall m k, m < n -> k < ng -> for_ 0 n body pm (slot_at m (Centre k)) = nth k (sorted m) 0%R)).
  { induction n as [|n IH]; intros Hn; [split; [reflexivity|lia]|]. destruct (IH ltac:(lia)) as [A B].
    destruct (write n (for_ 0 n body pm)) as [W1 W2].
    { intros k Hk. apply A. intros m' k' Hm' Hk' E. apply slot_at_inj in E; [lia|exact Hk|exact Hk']. }
    split.
    - intros s Hs. rewrite for_snoc, Nat.add_0_l. rewrite W1 by (intros k Hk; apply Hs; lia). apply A. intros m k Hm. apply Hs. lia.
    - intros m k Hm Hk. rewrite for_snoc, Nat.add_0_l. destruct (Nat.eq_dec m n) as [->|Hmn]; [apply W2; exact Hk|].
      rewrite W1; [apply B; lia|]. intros k' Hk' E. apply slot_at_inj in E; [lia|exact Hk|exact Hk']. }
  apply G. lia.
Qed.
End Slots.
