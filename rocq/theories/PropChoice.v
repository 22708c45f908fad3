(** C101: the choice of the parameter to be changed. *)
From Coq Require Import Reals ZArith List Bool Arith Lia Lra.
From Flocq Require Import Core BinarySingleNaN.
From Verif Require Import CPrelude ListLemmas SemisepModel SemisepProofs ParamModel ParamSpec ParamProofs ParamProofs2 ParamProofs3 ParamProofs4 ParamProofs5.
From Verif Require ScanModel ScanProofs3 TextModel TabModel PropTab PropDamp DampModel.
Import ListNotations.
Open Scope nat_scope.

(** All sequences of k numbers below n. *)
Fixpoint draws (n k : nat) : list (list nat) :=
  match k with O => [[]] | S k => flat_map (fun w => map (cons w) (draws n k)) (seq 0 n) end.
Definition count {A} (P : A -> bool) (l : list A) : nat := length (filter P l).
(** numbers of fixed and free parameters among the first n *)
Definition fixed_ones (fx : fixed) (n : nat) : nat := count (is_fixed fx) (seq 0 n).
Definition free_ones (fx : fixed) (n : nat) : nat := count (fun w => negb (is_fixed fx w)) (seq 0 n).
(** the loop has not ended after the sequence W; it has ended with parameter w *)
Definition goes_on (fx : fixed) (W : list nat) : bool := match choose_which fx W with Stuck => true | _ => false end.
Definition takes (fx : fixed) (w : nat) (W : list nat) : bool := match choose_which fx W with Ok v => v =? w | _ => false end.

Lemma in_draws n k W : In W (draws n k) <-> length W = k /\ forall w, In w W -> w < n.
Proof.
  revert W. induction k as [|k IH]; intros W; cbn [draws].
  - split; [intros [<-|[]]; split; [reflexivity|intros ? []]|]. intros [H _]. destruct W; [left; reflexivity|discriminate].
  - rewrite in_flat_map. split.
    + intros (w & Hw & H). apply in_seq in Hw. apply in_map_iff in H as (V & <- & H). apply IH in H as [H1 H2]. split; [cbn; lia|].
      intros v [<-|Hv]; [lia|auto].
    + intros [H1 H2]. destruct W as [|w V]; [discriminate|]. exists w. split; [apply in_seq; pose proof (H2 w (or_introl eq_refl)); lia|].
      apply in_map. apply IH. split; [cbn in H1; lia|]. intros v Hv. apply H2. right. exact Hv.
Qed.
Lemma nodup_draws n k : NoDup (draws n k).
Proof.
  induction k as [|k IH]; cbn [draws]; [constructor; [intros []|constructor]|].
  generalize (seq_NoDup n 0). generalize (seq 0 n) as l. induction l as [|a l IHl]; intros ND; [constructor|]. cbn [flat_map]. inversion ND as [|? ? Na ND']; subst.
  assert (G : NoDup (map (cons a) (draws n k))).
  { clear - IH. induction IH as [|x r Hx _ IHr]; [constructor|]. cbn [map]. constructor; [|exact IHr]. intros H. apply in_map_iff in H as (y & E & H). injection E as ->. contradiction. }
  assert (D : forall W, In W (map (cons a) (draws n k)) -> ~ In W (flat_map (fun w => map (cons w) (draws n k)) l)).
  { intros W H H'. apply in_map_iff in H as (V & <- & _). apply in_flat_map in H' as (b & Hb & H'). apply in_map_iff in H' as (V' & E & _). injection E as -> _. contradiction. }
  revert G D. generalize (map (cons a) (draws n k)) as m. induction m as [|x m IHm]; intros G D; [apply IHl; exact ND'|]. inversion G; subst. cbn [app]. constructor.
  - intros H. apply in_app_or in H as [H|H]; [contradiction|]. exact (D x (or_introl eq_refl) H).
  - apply IHm; [assumption|]. intros W HW. apply D. right. exact HW.
Qed.
Lemma count_app A (P : A -> bool) l m : count P (l ++ m) = count P l + count P m.
Proof. unfold count. rewrite filter_app, app_length. reflexivity. Qed.
Lemma count_map A B (P : B -> bool) (f : A -> B) l : count P (map f l) = count (fun x => P (f x)) l.
Proof. unfold count. induction l as [|a l IH]; [reflexivity|]. cbn. destruct (P (f a)); cbn; congruence. Qed.
Lemma count_ext A (P Q : A -> bool) l : (forall x, In x l -> P x = Q x) -> count P l = count Q l.
Proof. unfold count. intros H. rewrite (filter_ext_in P Q l H). reflexivity. Qed.
Lemma count_true A l : count (fun _ : A => true) l = length l.
Proof. unfold count. induction l; cbn; congruence. Qed.
Lemma count_false A l : count (fun _ : A => false) l = 0.
Proof. unfold count. induction l; cbn; congruence. Qed.
Lemma count_cons A (P : A -> bool) a l : count P (a :: l) = (if P a then 1 else 0) + count P l.
Proof. unfold count. cbn [filter]. destruct (P a); reflexivity. Qed.
Lemma length_draws n k : length (draws n k) = n ^ k.
Proof.
  induction k as [|k IH]; [reflexivity|]. cbn [draws Nat.pow]. rewrite <- IH. rewrite <- (seq_length n 0) at 2. generalize (seq 0 n) as l.
  induction l as [|a l IHl]; [reflexivity|]. cbn [flat_map length]. rewrite app_length, map_length, IHl. reflexivity.
Qed.
(** counting over the first number of a sequence *)
Lemma count_first fx P (k n : nat) (c d : nat) :
  (forall w V, is_fixed fx w = true -> P (w :: V) = P V) -> count P (draws n k) = c ->
  (forall l, (forall w, In w l -> is_fixed fx w = false -> count (fun V => P (w :: V)) (draws n k) = d) ->
   count P (flat_map (fun w => map (cons w) (draws n k)) l) = count (is_fixed fx) l * c + count (fun w => negb (is_fixed fx w)) l * d).
Proof.
  intros H Hc. induction l as [|a l IH]; intros Hd; [reflexivity|]. cbn [flat_map]. rewrite count_app, count_map, IH by (intros w Hw; apply Hd; right; exact Hw).
  rewrite !count_cons. destruct (is_fixed fx a) eqn:F; cbn [negb].
  - rewrite (count_ext _ _ P) by (intros V _; apply H; exact F). lia.
  - rewrite (Hd a (or_introl eq_refl) F). lia.
Qed.
Lemma ones fx n : fixed_ones fx n + free_ones fx n = n.
Proof.
  unfold fixed_ones, free_ones. rewrite <- (seq_length n 0) at 3. generalize (seq 0 n) as l. unfold count.
  induction l as [|a l IH]; [reflexivity|]. cbn [filter length]. destruct (is_fixed fx a); cbn [negb length]; lia.
Qed.
Lemma goes_on_count fx n k : count (goes_on fx) (draws n k) = fixed_ones fx n ^ k.
Proof.
  induction k as [|k IH]; [reflexivity|]. cbn [draws].
  rewrite (count_first fx (goes_on fx) k n (fixed_ones fx n ^ k) 0); [|intros w V F; unfold goes_on; cbn [choose_which]; rewrite F; reflexivity|exact IH|].
  - cbn [Nat.pow]. fold (fixed_ones fx n). lia.
  - intros w _ F. rewrite (count_ext _ _ (fun _ => false)); [apply count_false|]. intros V _. unfold goes_on. cbn [choose_which]. rewrite F. reflexivity.
Qed.
Lemma takes_count fx n w : w < n -> is_fixed fx w = false ->
  forall k, count (takes fx w) (draws n (S k)) = n ^ k + fixed_ones fx n * count (takes fx w) (draws n k).
Proof.
  intros Hw F k. cbn [draws].
  assert (G : forall l, NoDup l -> count (takes fx w) (flat_map (fun v => map (cons v) (draws n k)) l)
    = (if in_dec Nat.eq_dec w l then n ^ k else 0) + count (is_fixed fx) l * count (takes fx w) (draws n k)).
  { induction l as [|a l IH]; intros ND; [reflexivity|]. inversion ND as [|? ? Na ND']; subst. cbn [flat_map]. rewrite count_app, count_map, (IH ND').
    rewrite count_cons. destruct (is_fixed fx a) eqn:Fa.
    - rewrite (count_ext _ _ (takes fx w)) by (intros V _; unfold takes; cbn [choose_which]; rewrite Fa; reflexivity).
      destruct (in_dec Nat.eq_dec w l) as [I|I], (in_dec Nat.eq_dec w (a :: l)) as [J|J]; try lia.
      + exfalso. apply J. right. exact I.
      + exfalso. destruct J as [->|J]; [congruence|contradiction].
    - destruct (Nat.eq_dec a w) as [->|N].
      + rewrite (count_ext _ _ (fun _ => true)) by (intros V _; unfold takes; cbn [choose_which]; rewrite Fa; apply Nat.eqb_refl).
        rewrite count_true, length_draws. destruct (in_dec Nat.eq_dec w l) as [I|I]; [contradiction|].
        destruct (in_dec Nat.eq_dec w (w :: l)) as [J|J]; [lia|]. exfalso. apply J. left. reflexivity.
      + rewrite (count_ext _ _ (fun _ => false)) by (intros V _; unfold takes; cbn [choose_which]; rewrite Fa; apply Nat.eqb_neq; exact N).
        rewrite count_false. destruct (in_dec Nat.eq_dec w l) as [I|I], (in_dec Nat.eq_dec w (a :: l)) as [J|J]; try lia.
        * exfalso. apply J. right. exact I.
        * exfalso. destruct J as [->|J]; [congruence|contradiction]. }
  rewrite G by apply seq_NoDup. fold (fixed_ones fx n). destruct (in_dec Nat.eq_dec w (seq 0 n)) as [I|I]; [reflexivity|]. exfalso. apply I. apply in_seq. lia.
Qed.

(** The loop ends with the first free parameter drawn, and goes on as long as only
    fixed ones are drawn. *)
Theorem C101_first : forall fx W,
  (forall w, choose_which fx W = Ok w <-> exists V V', W = V ++ w :: V' /\ is_fixed fx w = false /\ forall v, In v V -> is_fixed fx v = true)
  /\ (choose_which fx W = Stuck <-> forall v, In v W -> is_fixed fx v = true).
Proof.
  intros fx W. induction W as [|a W [IH1 IH2]].
  - split; [intros w; split; [discriminate|intros (V & V' & E & _); destruct V; discriminate]|]. split; [intros _ v []|reflexivity].
  - cbn [choose_which]. destruct (is_fixed fx a) eqn:F; split.
    + intros w. rewrite IH1. split.
      * intros (V & V' & -> & Fw & H). exists (a :: V), V'. split; [reflexivity|]. split; [exact Fw|]. intros v [<-|Hv]; auto.
      * intros (V & V' & E & Fw & H). destruct V as [|b V]; [injection E as -> ->; congruence|]. injection E as -> ->.
        exists V, V'. split; [reflexivity|]. split; [exact Fw|]. intros v Hv. apply H. right. exact Hv.
    + rewrite IH2. split; [intros H v [<-|Hv]; auto|intros H v Hv; apply H; right; exact Hv].
    + intros w. split.
      * intros [= <-]. exists [], W. split; [reflexivity|]. split; [exact F|]. intros v [].
      * intros (V & V' & E & Fw & H). destruct V as [|b V]; [injection E as -> ->; reflexivity|]. injection E as -> ->. rewrite (H b (or_introl eq_refl)) in F. discriminate.
    + split; [discriminate|]. intros H. rewrite (H a (or_introl eq_refl)) in F. discriminate.
Qed.
Print Assumptions C101_first.

(** Of the n^k sequences of k draws, F^k leave the loop going, F the number of fixed
    parameters: with one free parameter the fraction becomes as small as one likes. *)
Theorem C101_ends : forall fx n,
  (forall k, length (draws n k) = n ^ k /\ count (goes_on fx) (draws n k) = fixed_ones fx n ^ k)
  /\ ((exists w, w < n /\ is_fixed fx w = false) -> forall eps, (0 < eps)%R ->
      exists K, forall k, K <= k -> (INR (count (goes_on fx) (draws n k)) <= eps * INR (length (draws n k)))%R).
Proof.
  intros fx n. split; [intros k; split; [apply length_draws|apply goes_on_count]|].
  intros (w & Hw & F) eps He.
  assert (L : fixed_ones fx n < n).
  { pose proof (ones fx n). enough (0 < free_ones fx n) by lia. unfold free_ones, count.
    destruct (filter (fun w => negb (is_fixed fx w)) (seq 0 n)) as [|x r] eqn:E; [|cbn; lia].
    assert (I : In w (filter (fun w => negb (is_fixed fx w)) (seq 0 n))) by (apply filter_In; split; [apply in_seq; lia|rewrite F; reflexivity]). rewrite E in I. destruct I. }
  assert (N : (0 < INR n)%R) by (apply lt_0_INR; lia).
  destruct (pow_lt_1_zero (INR (fixed_ones fx n) / INR n)%R) with (y := eps) as (K & HK); [|exact He|].
  - rewrite Rabs_pos_eq; [|apply Rmult_le_pos; [apply pos_INR|left; apply Rinv_0_lt_compat; exact N]].
    apply Rmult_lt_reg_r with (INR n); [exact N|]. unfold Rdiv. rewrite Rmult_assoc, Rinv_l, Rmult_1_r, Rmult_1_l by lra. apply lt_INR. exact L.
  - exists K. intros k Hk. specialize (HK k Hk). rewrite goes_on_count, length_draws, !pow_INR.
    unfold Rdiv in HK. rewrite Rpow_mult_distr, pow_inv in HK. assert (P : (0 < INR n ^ k)%R) by (apply pow_lt; exact N).
    rewrite Rabs_pos_eq in HK by (apply Rmult_le_pos; [apply pow_le, pos_INR|left; apply Rinv_0_lt_compat; exact P]).
    apply Rmult_lt_compat_r with (r := (INR n ^ k)%R) in HK; [|exact P]. rewrite Rmult_assoc, Rinv_l, Rmult_1_r in HK by lra. lra.
Qed.
Print Assumptions C101_ends.

(** Every free parameter is taken by the same number of sequences: together they
    have all sequences that end the loop. *)
Theorem C101_even : forall fx n w k, w < n -> is_fixed fx w = false ->
  free_ones fx n * count (takes fx w) (draws n k) + fixed_ones fx n ^ k = n ^ k.
Proof.
  intros fx n w k Hw F. induction k as [|k IH]; [unfold takes; cbn; lia|]. rewrite (takes_count fx n w Hw F). cbn [Nat.pow].
  pose proof (ones fx n) as O. set (a := fixed_ones fx n) in *. set (b := free_ones fx n) in *. set (c := count (takes fx w) (draws n k)) in *.
  replace (b * (n ^ k + a * c) + a * a ^ k) with (b * n ^ k + a * (b * c + a ^ k)) by ring. rewrite IH, <- O. ring.
Qed.
Print Assumptions C101_even.

(** That the parameters of the variability are drawn more often than those of the
    lines, as the comment says, is false. *)
Theorem C101_favour_refuted : exists fx nset nlset ng v w k,
  let n := num_params nset nlset ng 0 false in
  v < num_params_var nset false /\ num_params_var nset false <= w < n /\ is_fixed fx v = false /\ is_fixed fx w = false /\ 0 < count (takes fx v) (draws n k)
  /\ count (takes fx v) (draws n k) = count (takes fx w) (draws n k).
Proof.
  exists (fix_con 1 false false none_fixed), 1, (fun _ => 1), 1, 1, 4, 2. cbv zeta. repeat split; try (cbn; lia).
Qed.
Print Assumptions C101_favour_refuted.

Section Own.
Variable nset : nat.
Variable nlset : nat -> nat.
Variable ng : nat.
Variable uniform : nat.
Variable uniform_var : bool.
Notation nvar := (num_params_var nset uniform_var).
Notation np := (num_params nset nlset ng uniform uniform_var).
Notation idxs := (set_idx_line_pm nset nlset ng uniform uniform_var unset).
Variables con_err line_err : bool.
Variables tlp tf : nat.
Variables lag_low lag_upper : R.

(** the amplitude and the damping time of the variability of set i *)
Definition sigma_of (i : nat) : nat := idx_con_pm uniform_var i + 1.
Definition tau_of (i : nat) : nat := idx_con_pm uniform_var i + 2.

Lemma var_place i c : i < nset -> 0 < c < 3 -> idx_con_pm uniform_var i + c < nvar /\ (idx_con_pm uniform_var i + c) mod 3 <> 0.
Proof.
  intros Hi Hc. unfold idx_con_pm, num_params_var. destruct uniform_var.
  - split; [lia|]. rewrite Nat.mod_small; lia.
  - split; [lia|]. replace (3 * i + c) with (c + i * 3) by lia. rewrite Nat.mod_add, Nat.mod_small; lia.
Qed.
Lemma free_of (f : fixed) : (forall s, s < nvar -> (is_fixed f s = true <-> con_err = false /\ s mod 3 = 0)) ->
  forall i, i < nset -> is_fixed f (sigma_of i) = false /\ is_fixed f (tau_of i) = false.
Proof.
  intros H i Hi. destruct (var_place i 1 Hi ltac:(lia)) as [A1 A2]. destruct (var_place i 2 Hi ltac:(lia)) as [B1 B2]. unfold sigma_of, tau_of. split.
  - destruct (is_fixed f (idx_con_pm uniform_var i + 1)) eqn:F; [|reflexivity]. apply H in F; [|exact A1]. tauto.
  - destruct (is_fixed f (idx_con_pm uniform_var i + 2)) eqn:F; [|reflexivity]. apply H in F; [|exact B1]. tauto.
Qed.
Lemma con_only (f0 : fixed) (more : list (nat * R)) : (forall s, is_fixed f0 s = false) -> (forall s v, In (s, v) more -> nvar <= s) ->
  forall s, s < nvar -> (is_fixed (fixes more (fix_con nset uniform_var con_err f0)) s = true <-> con_err = false /\ s mod 3 = 0).
Proof.
  intros H0 Hm s Hs. rewrite fix_con_list. change (if con_err then _ else _) with (list_con nset uniform_var con_err). rewrite fixes_app.
  destruct (fixes_spec (list_con nset uniform_var con_err ++ more) f0 s) as (A & _ & _). rewrite A, H0, map_app, in_app_iff, !in_map_iff. split.
  - intros [?|[([a v] & E & H)|([a v] & E & H)]]; [discriminate| |]; cbn [fst] in E; subst a.
    + apply (in_list_con nset nlset uniform_var con_err) in H. destruct H as (H1 & _ & _ & H2). split; [exact H1|exact H2].
    + apply Hm in H. lia.
  - intros [Hc Hd]. right. left. exists (s, 0%R). split; [reflexivity|]. apply (in_list_con nset nlset). auto.
Qed.

(** The parameters the program fixes itself leave a choice in every mode: the
    damping times are free, and except in the virtual mode the amplitudes of the
    variability. *)
Theorem C101_free : 
  (forall i val0, i < nset -> let f := set_fixed_con nset uniform_var con_err val0 in
     is_fixed f (sigma_of i) = false /\ is_fixed f (tau_of i) = false)
  /\ (exists f, set_fixed_line nset nlset ng uniform uniform_var con_err line_err tlp tf lag_low lag_upper idxs = Ok f /\
        forall i, i < nset -> is_fixed f (sigma_of i) = false /\ is_fixed f (tau_of i) = false)
  /\ (exists f, set_fixed_mmap nset nlset ng uniform uniform_var con_err line_err tlp lag_low lag_upper idxs = Ok f /\
        forall i, i < nset -> is_fixed f (sigma_of i) = false /\ is_fixed f (tau_of i) = false)
  /\ (forall i, i < nset -> let f := set_fixed_pmap nset nlset ng uniform uniform_var con_err line_err in
        is_fixed f (sigma_of i) = false /\ is_fixed f (tau_of i) = false)
  /\ (forall f i, (forall i, i < nset -> 0 < nlset i) -> set_fixed_vmap nset nlset ng uniform uniform_var line_err idxs = Ok f ->
        i < nset -> is_fixed f (tau_of i) = false)
  /\ (forall i, i < nset -> sigma_of i < nvar /\ tau_of i < nvar /\ nvar <= np).
Proof.
  split; [|split; [|split; [|split; [|split]]]].
  - intros i val0 Hi f. apply free_of; [|exact Hi]. intros s Hs. apply (con_only (Fixed (fun _ => false) val0) []); auto. intros ? ? [].
  - destruct (set_fixed_line_spec nset nlset ng uniform uniform_var con_err line_err tlp tf lag_low lag_upper) as (f & E & A & _).
    exists f. split; [exact E|]. apply free_of. intros s Hs. apply (A s Hs).
  - destruct (set_fixed_mmap_spec nset nlset ng uniform uniform_var con_err line_err tlp 0 lag_low lag_upper) as (f & E & A & _).
    exists f. split; [exact E|]. apply free_of. intros s Hs. apply (A s Hs).
  - intros i Hi f. apply free_of; [|exact Hi]. intros s Hs. unfold f, set_fixed_pmap. rewrite fix_line_list. apply con_only; [reflexivity| |exact Hs].
    intros a v H. destruct line_err; [destruct H|]. apply in_flat_map in H as (m & _ & [H|[]]). injection H as <- _. unfold slot_at. lia.
  - intros f i Hl E Hi. exact (PropDamp.damping_free nset nlset ng uniform uniform_var line_err f i Hi Hl E).
  - intros i Hi. destruct (var_place i 1 Hi ltac:(lia)). destruct (var_place i 2 Hi ltac:(lia)). unfold sigma_of, tau_of, num_params. repeat split; lia.
Qed.
End Own.
Print Assumptions C101_free.

(** The fixed parameters after a prior file was read: par_fix[i] == 1. *)
Definition loaded (st : @ScanModel.pstate DampModel.b64) : fixed := Fixed (fun i => (nth i (ScanModel.p_fix st) 0%Z =? 1)%Z) (fun _ => 0%R).
(** A table of parameters that are all fixed. *)
Definition pinned : @ScanModel.pstate DampModel.b64 :=
  ScanModel.mkps [(PropTab.w0, PropTab.w1); (PropTab.w0, PropTab.w1); (PropTab.w0, PropTab.w1)] [1; 1; 1]%Z [PropTab.w0; PropTab.w1; PropTab.w0].
Lemma pinned_ok : PropTab.ok_tab 3 pinned.
Proof.
  assert (T : (4 <= 10 ^ 60)%R). { apply Rle_trans with (10 ^ 1)%R; [lra|]. apply Rle_pow; [lra|lia]. }
  assert (V := PropTab.w1_val). assert (A1 : (Rabs (B2R PropTab.w1) <= 10 ^ 60)%R) by (rewrite V, Rabs_pos_eq; lra).
  assert (A0 : (Rabs (B2R PropTab.w0) <= 10 ^ 60)%R) by (change (B2R PropTab.w0) with 0%R; rewrite Rabs_R0; lra).
  split; [repeat split|]. split; [reflexivity|]. intros [|[|[|i]]] a b f v H; cbn in H; [injection H as <- <- <- <-..|destruct i; discriminate H]; repeat split; auto; lia.
Qed.
(** That a choice is always left is false: a prior file that is accepted can fix
    every parameter, and then no sequence of draws ends the loop. *)
Theorem C101_hang_refuted : exists (t : list Ascii.ascii) fuel st st',
  ScanModel.load_par_names TextModel.scan_lf fuel 3 t [] [] st = Ok st'
  /\ forall W, (forall w, In w W -> w < 3) -> choose_which (loaded st') W = Stuck.
Proof.
  destruct (PropTab.reload TabModel.Tvmap 0 1 0 pinned pinned [] [] pinned_ok (proj1 pinned_ok)) as (t & fuel0 & E & H). destruct (H fuel0 (le_n _)) as (st' & L & _ & P).
  exists t, fuel0, pinned, st'. split; [exact L|].
  assert (G : forall w, w < 3 -> is_fixed (loaded st') w = true).
  { intros w Hw. destruct (P w ltac:(cbn; lia)) as (a & b & f & v & v' & PS & _ & _ & _ & PS' & _).
    assert (f = 1%Z) as -> by (destruct w as [|[|[|w]]]; [cbn in PS; congruence ..|lia]).
    unfold loaded. cbn [is_fixed]. unfold ScanProofs3.par in PS'.
    destruct (nth_error (ScanModel.p_range st') w); [|discriminate]. destruct (nth_error (ScanModel.p_fix st') w) as [z|] eqn:N; [|discriminate].
    destruct (nth_error (ScanModel.p_val st') w); [|discriminate]. rewrite (nth_error_nth _ _ _ N). injection PS' as _ -> _. reflexivity. }
  intros W HW. apply C101_first. intros v Hv. apply G. apply HW. exact Hv.
Qed.
Print Assumptions C101_hang_refuted.

(** Three parameters of one set, the systematic error fixed: of the 9 sequences of
    two draws one goes on, and each of the other two is taken by four. *)
Example C101_example : let f := fix_con 1 false false none_fixed in
  (length (draws 3 2), count (goes_on f) (draws 3 2), count (takes f 1) (draws 3 2), count (takes f 2) (draws 3 2), count (takes f 0) (draws 3 2)) = (9, 1, 4, 4, 0).
Proof. reflexivity. Qed.
