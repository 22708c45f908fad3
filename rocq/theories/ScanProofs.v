(** Proofs about the parsers of ScanModel.v. *)
From Coq Require Import ZArith List Bool Lia Ascii.
From Verif Require Import CPrelude ListLemmas TagModel ScanModel.
Import ListNotations.
Open Scope Z_scope.

Definition OPEN : ascii := "["%char.
Definition CLOSE : ascii := "]"%char.
(** what may follow a number *)
Definition ends (s : list ascii) : Prop :=
  match s with [] => True | c :: _ => isspace c = true \/ c = COLON \/ c = CLOSE end.
(** a character that may occur in a number *)
Definition numchar (c : ascii) : Prop := isspace c = false /\ c <> COLON /\ c <> CLOSE /\ c <> OPEN /\ c <> HASH /\ c <> NUL.
Definition space (s : list ascii) : Prop := Forall (fun c => isspace c = true) s.
Definition plain_numerals {V} (num : list ascii -> V -> Prop) : Prop :=
  forall w v, num w v -> w <> [] /\ Forall numchar w.
Definition reads_numbers {V} (num : list ascii -> V -> Prop) (lf : list ascii -> option (V * list ascii)) : Prop :=
  forall sp w rest v, num w v -> space sp -> ends rest -> lf (sp ++ w ++ rest) = Some (v, rest).

(** "v0:v1:...]" *)
Fixpoint colon_list (ws : list (list ascii)) : list ascii :=
  match ws with
  | [] => [CLOSE]
  | [w] => w ++ [CLOSE]
  | w :: r => w ++ COLON :: colon_list r
  end.
Arguments colon_list : simpl never.
Lemma colon_list_one : forall w, colon_list [w] = w ++ [CLOSE].
Proof. reflexivity. Qed.
Lemma colon_list_cons : forall w w' r, colon_list (w :: w' :: r) = w ++ COLON :: colon_list (w' :: r).
Proof. reflexivity. Qed.

Lemma strchr_skip : forall c w r, Forall (fun x => x <> c) w -> strchr c (w ++ r) = strchr c r.
Proof. induction w; intros r H; simpl; auto. inversion H; subst. destruct (ascii_dec a c); [congruence|auto]. Qed.
Lemma numchar_nc : forall w, Forall numchar w -> Forall (fun x => x <> COLON) w.
Proof. intros w H. eapply Forall_impl; [|exact H]. intros a (_ & N & _). exact N. Qed.
Lemma strchr_here : forall c r, strchr c (c :: r) = Some (c :: r).
Proof. intros. simpl. destruct (ascii_dec c c); [auto|congruence]. Qed.

Section Prior.
  Context {V : Type}.
  Variable num : list ascii -> V -> Prop.
  Variable lf : list ascii -> option (V * list ascii).
  Hypothesis PN : plain_numerals num.
  Hypothesis RN : reads_numbers num lf.

  Lemma lf_head : forall w ws v, num w v -> exists r, lf (colon_list (w :: ws)) = Some (v, r) /\ ends r.
  Proof.
    intros w ws v H. destruct ws as [|w' ws].
    - exists [CLOSE]. split; [|simpl; auto]. apply (RN [] w [CLOSE] v H); [constructor|simpl; auto].
    - exists (COLON :: colon_list (w' :: ws)). split; [|simpl; auto]. rewrite colon_list_cons.
      apply (RN [] w _ v H); [constructor|simpl; auto].
  Qed.
  Lemma strchr_list : forall w ws v, num w v -> strchr COLON (colon_list (w :: ws)) = match ws with [] => None | _ => Some (COLON :: colon_list ws) end.
  Proof.
    intros w ws v H. destruct (PN _ _ H) as [_ NC]. apply numchar_nc in NC. destruct ws as [|w' ws].
    - rewrite colon_list_one, strchr_skip by auto. simpl. destruct (ascii_dec CLOSE COLON) as [E|]; [discriminate E|reflexivity].
    - rewrite colon_list_cons, strchr_skip by auto. apply strchr_here.
  Qed.

  (** array with the first j cells written *)
  Definition filled (n : nat) (vs : list V) : list (option V) := map Some vs ++ repeat None (n - length vs).
  Lemma put_filled : forall n vs v, (length vs < n)%nat -> put (filled n vs) (length vs) (Some v) = Ok (filled n (vs ++ [v])).
  Proof.
    intros n vs v L. unfold put, filled. rewrite app_length. simpl length.
    replace (n - length vs)%nat with (S (n - (length vs + 1))) by lia. simpl repeat.
    rewrite map_app. simpl map. rewrite <- app_assoc. simpl app.
    assert (E : forall (a : list (option V)) x y r, length a = length vs -> set_nth (length vs) x (a ++ y :: r) = Some (a ++ x :: r)).
    { clear. revert vs. intros vs a x y r. revert vs. induction a; intros vs L; simpl in L; rewrite <- L; simpl; auto.
      destruct vs; simpl in L; [lia|]. specialize (IHa vs). injection L as L. rewrite L. rewrite (IHa L). reflexivity. }
    rewrite E; [reflexivity|apply map_length].
  Qed.

  Lemma prior_loop_ok : forall n N ws vs done, Forall2 num ws vs ->
    (length done + n < N)%nat -> (1 <= length ws)%nat ->
    prior_loop lf n (colon_list ws) (length done) (filled N done) =
      if (n <? length ws)%nat then Ok (colon_list (skipn n ws), (length done + n)%nat, filled N (done ++ firstn n vs)) else Exit.
  Proof.
    induction n; intros N ws vs done F B L.
    - simpl. destruct ws; [simpl in L; lia|]. simpl. rewrite Nat.add_0_r, app_nil_r. reflexivity.
    - destruct ws as [|w ws]; [simpl in L; lia|]. inversion F as [|? v ? vs' NV F']; subst. simpl prior_loop.
      unfold scan_into. destruct (lf_head w ws v NV) as (r & -> & _).
      rewrite put_filled by lia. cbn [bind].
      rewrite (strchr_list w ws v NV). destruct ws as [|w' ws].
      + simpl. destruct (Nat.ltb_spec (S n) 1); [lia|reflexivity].
      + replace (S (length done)) with (length (done ++ [v])) by (rewrite app_length; simpl; lia).
        rewrite (IHn N (w' :: ws) vs' (done ++ [v]) F') by (rewrite ?app_length; simpl; lia).
        rewrite app_length. simpl length. change (S n <? S (S (length ws)))%nat with (n <? S (length ws))%nat.
        destruct (n <? S (length ws))%nat; [|reflexivity].
        cbn [skipn firstn]. rewrite <- app_assoc. simpl app. replace (length done + 1 + n)%nat with (length done + S n)%nat by lia. reflexivity.
  Qed.

  Lemma lag_ok : forall G ws vs, (1 <= G)%nat -> Forall2 num ws vs ->
    lag_prior lf G (OPEN :: colon_list ws) = if (2 * G <=? length ws)%nat then Ok (map Some (firstn (2 * G) vs)) else Exit.
  Proof.
    intros G ws vs HG F. unfold lag_prior. destruct ws as [|w0 ws0].
    - simpl length. destruct (Nat.leb_spec (2 * G) 0); [lia|].
      replace (2 * G - 1)%nat with (S (2 * G - 2)) by lia. cbn [prior_loop]. unfold scan_into.
      assert (NZ : exists a, (match lf (colon_list []) with Some (v, _) => put (repeat None (2 * G)) 0 (Some v) | None => Ok (repeat None (2 * G)) end) = Ok a).
      { destruct (lf (colon_list [])) as [[v r]|]; [|eauto]. replace (2 * G)%nat with (S (2 * G - 1)) by lia. simpl. unfold put. simpl. eauto. }
      destruct NZ as [a E]. rewrite E. cbn [bind]. change (colon_list []) with [CLOSE]. cbn [strchr].
      destruct (ascii_dec CLOSE COLON) as [X|]; [discriminate X|]. reflexivity.
    - set (ws := w0 :: ws0) in *.
      assert (P : prior_loop lf (2 * G - 1) (colon_list ws) 0 (repeat None (2 * G)) =
        if (2 * G - 1 <? length ws)%nat then Ok (colon_list (skipn (2 * G - 1) ws), (2 * G - 1)%nat, filled (2 * G) (firstn (2 * G - 1) vs)) else Exit).
      { pose proof (prior_loop_ok (2 * G - 1) (2 * G) ws vs [] F) as P. unfold filled in P at 1.
        change (map Some (@nil V)) with (@nil (option V)) in P. change (length (@nil V)) with 0%nat in P. rewrite Nat.sub_0_r in P.
        apply P; [lia|unfold ws; simpl; lia]. }
      rewrite P. clear P.
      destruct (Nat.ltb_spec (2 * G - 1) (length ws)) as [LT|GE].
      + destruct (Nat.leb_spec (2 * G) (length ws)); [|lia]. cbn [bind]. 
        assert (LV : length ws = length vs) by (clear - F; induction F; simpl; congruence).
        destruct (nth_error ws (2 * G - 1)) as [w|] eqn:EW; [|apply nth_error_None in EW; lia].
        destruct (nth_error vs (2 * G - 1)) as [v|] eqn:EV; [|apply nth_error_None in EV; lia].
        assert (SK : exists r, skipn (2 * G - 1) ws = w :: r).
        { exists (skipn (S (2 * G - 1)) ws). clear - EW. revert EW. generalize (2 * G - 1)%nat. induction ws as [|a l IH]; intros m E; destruct m; simpl in *; try discriminate; [congruence|]. apply IH; auto. }
        destruct SK as [r SK]. rewrite SK.
        assert (NV : num w v). { clear - F EW EV. revert EW EV. generalize (2 * G - 1)%nat. induction F; intros m EW EV; destruct m; simpl in *; try discriminate; [congruence|eauto]. }
        unfold scan_into. destruct (lf_head w r v NV) as (q & -> & _).
        assert (LF : length (firstn (2 * G - 1) vs) = (2 * G - 1)%nat) by (rewrite firstn_length; lia).
        replace (2 * G - 1)%nat with (length (firstn (2 * G - 1) vs)) at 2 by (rewrite LF; lia).
        pose proof (put_filled (2 * G) (firstn (2 * G - 1) vs) v ltac:(rewrite LF; lia)) as PF. rewrite PF.
        assert (EF : firstn (2 * G - 1) vs ++ [v] = firstn (2 * G) vs).
        { replace (2 * G)%nat with (S (2 * G - 1)) at 2 by lia. clear - EV. revert EV. generalize (2 * G - 1)%nat. induction vs as [|a l IH]; intros m E; destruct m; simpl in *; try discriminate; [congruence|]. rewrite <- (IH m E). reflexivity. }
        rewrite EF. unfold filled. rewrite firstn_length. replace (2 * G - Nat.min (2 * G) (length vs))%nat with 0%nat by lia.
        simpl. rewrite app_nil_r. reflexivity.
      + destruct (Nat.leb_spec (2 * G) (length ws)); [lia|]. reflexivity.
  Qed.

  Variable le0 : V -> bool.
  Variable logv : V -> V.
  Lemma take_logs_ok : forall vs, take_logs le0 logv (map Some vs) = if existsb le0 vs then Exit else Ok (map logv vs).
  Proof. induction vs; simpl; auto. destruct (le0 a); simpl; auto. rewrite IHvs. destruct (existsb le0 vs); reflexivity. Qed.

  Variable half : V -> V.
  Lemma scan_pair_ok : forall w w' ws v v', num w v -> num w' v' -> scan_pair lf (colon_list (w :: w' :: ws)) = Some (v, v').
  Proof.
    intros w w' ws v v' H H'. unfold scan_pair. rewrite colon_list_cons.
    pose proof (RN [] w (COLON :: colon_list (w' :: ws)) v H) as E. simpl app in E. rewrite E; [|constructor|simpl; auto].
    simpl. destruct (ascii_dec COLON COLON); [|congruence].
    destruct (lf_head w' ws v' H') as (r & E2 & _). simpl colon_list in E2. rewrite E2. reflexivity.
  Qed.
  (** consecutive numbers *)
  Fixpoint chain (n : nat) (vs : list V) : list (V * V) :=
    match n, vs with
    | S m, a :: ((b :: _) as r) => (a, half b) :: chain m r
    | _, _ => []
    end.
  Lemma gap_loop_ok : forall n ws vs, Forall2 num ws vs -> (n < length ws)%nat ->
    gap_loop lf half n (colon_list ws) = Ok (colon_list (skipn n ws), chain n vs).
  Proof.
    induction n; intros ws vs F L; [reflexivity|].
    destruct ws as [|w [|w' ws]]; simpl in L; try lia.
    inversion F as [|? v ? vs' NV F']; subst. inversion F' as [|? v' ? vs'' NV' F'']; subst.
    simpl gap_loop. rewrite (scan_pair_ok w w' ws v v' NV NV').
    assert (E := strchr_list w (w' :: ws) v NV). rewrite E. clear E.
    rewrite (IHn (w' :: ws) (v' :: vs'') F') by (simpl; lia). cbn [bind]. reflexivity.
  Qed.
  Lemma gap_ok : forall nset ws vs, (1 <= nset)%nat -> Forall2 num ws vs -> (nset < length ws)%nat ->
    gap_prior lf half nset (OPEN :: colon_list ws) = Ok (chain nset vs).
  Proof.
    intros nset ws vs N F L. unfold gap_prior. rewrite (gap_loop_ok (nset - 1) ws vs F) by lia. cbn [bind].
    assert (G : forall n ws vs, Forall2 num ws vs -> (S n < length ws)%nat -> exists v v', scan_pair lf (colon_list (skipn n ws)) = Some (v, v') /\
      chain (S n) vs = chain n vs ++ [(v, half v')]).
    { clear - PN RN. induction n; intros ws vs F L.
      - destruct ws as [|w [|w' ws]]; simpl in L; try lia.
        inversion F as [|? v ? vs' NV F']; subst. inversion F' as [|? v' ? vs'' NV' F'']; subst. exists v, v'. split; [apply scan_pair_ok; auto|reflexivity].
      - destruct ws as [|w [|w' ws]]; simpl in L; try lia.
        inversion F as [|? v ? vs' NV F']; subst. inversion F' as [|? v' ? vs'' NV' F'']; subst.
        destruct (IHn (w' :: ws) (v' :: vs'') F') as (x & x' & E1 & E2); [simpl; lia|]. exists x, x'. split; [exact E1|].
        change (chain (S (S n)) (v :: v' :: vs'')) with ((v, half v') :: chain (S n) (v' :: vs'')). rewrite E2. reflexivity. }
    destruct (G (nset - 1)%nat ws vs F) as (v & v' & E1 & E2); [lia|]. rewrite E1. rewrite <- E2. replace (S (nset - 1)) with nset by lia. reflexivity.
  Qed.
  Lemma chain_nth : forall n vs i, (n < length vs)%nat -> (i < n)%nat -> exists a b, nth_error vs i = Some a /\ nth_error vs (S i) = Some b /\
    nth_error (chain n vs) i = Some (a, half b).
  Proof.
    induction n; intros vs i L I; [lia|]. destruct vs as [|a [|b r]]; simpl in L; try lia. destruct i.
    - exists a, b. repeat split; reflexivity.
    - destruct (IHn (b :: r) i) as (x & y & H1 & H2 & H3); [simpl; lia|lia|]. exists x, y. repeat split; auto.
  Qed.
  Lemma chain_length : forall n vs, (n < length vs)%nat -> length (chain n vs) = n.
  Proof. induction n; intros vs L; [destruct vs; reflexivity|]. destruct vs as [|a [|b r]]; simpl in L; try lia. simpl. f_equal. apply (IHn (b :: r)). simpl. lia. Qed.

  (** ** ratio prior *)
  Lemma count_app : forall w r, Forall (fun x => x <> COLON) w -> count_colon (w ++ r) = count_colon r.
  Proof. induction w; intros r H; simpl; auto. inversion H; subst. destruct (ascii_dec a COLON); [congruence|auto]. Qed.
  Lemma count_list : forall ws vs, Forall2 num ws vs -> count_colon (colon_list ws) = (length ws - 1)%nat.
  Proof.
    intros ws vs F. induction F as [|w v ws vs NV F IH]; [reflexivity|]. destruct (PN _ _ NV) as [_ NC]. apply numchar_nc in NC.
    destruct ws as [|w' ws].
    - rewrite colon_list_one, count_app by auto. reflexivity.
    - rewrite colon_list_cons, count_app by auto. simpl. destruct (ascii_dec COLON COLON); [|congruence]. simpl in IH. rewrite IH. simpl. lia.
  Qed.
  Lemma log_filled : forall N vs v, (length vs < N)%nat -> log_at logv (length vs) (filled N (vs ++ [v])) = Ok (filled N (vs ++ [logv v])).
  Proof.
    intros N vs v L. unfold log_at, get, filled. rewrite map_app. simpl map. rewrite <- app_assoc.
    rewrite nth_error_app2 by (rewrite map_length; lia). rewrite map_length, Nat.sub_diag. simpl.
    unfold put. rewrite !app_length. simpl length. rewrite map_app, <- app_assoc. simpl.
    assert (E : forall (a : list (option V)) x y r, length a = length vs -> set_nth (length vs) x (a ++ y :: r) = Some (a ++ x :: r)).
    { clear. revert vs. intros vs a x y r. revert vs. induction a; intros vs L; simpl in L; rewrite <- L; simpl; auto.
      destruct vs; simpl in L; [lia|]. specialize (IHa vs). injection L as L. rewrite L. rewrite (IHa L). reflexivity. }
    rewrite E; [reflexivity|apply map_length].
  Qed.
  (** one step of ratio_loop *)
  Lemma ratio_step : forall n N w ws v done, num w v -> (length done < N)%nat ->
    ratio_loop lf logv (S n) (Some (colon_list (w :: ws))) (length done) (filled N done) =
    ratio_loop lf logv n (match ws with [] => None | _ => Some (colon_list ws) end) (S (length done)) (filled N (done ++ [logv v])).
  Proof.
    intros n N w ws v done NV L. simpl ratio_loop. unfold scan_into. destruct (lf_head w ws v NV) as (r & E & _).
    simpl colon_list in E. rewrite E. rewrite put_filled by auto. cbn [bind]. rewrite log_filled by auto. cbn [bind].
    assert (E2 := strchr_list w ws v NV). simpl colon_list in E2. rewrite E2. destruct ws; reflexivity.
  Qed.
  Lemma put_over : forall (a : list (option V)) j x, (length a <= j)%nat -> put a j x = UB.
  Proof.
    intros a j x H. unfold put. replace (set_nth j x a) with (@None (list (option V))); [reflexivity|].
    revert j H. induction a; intros j H; [reflexivity|]. destruct j; simpl in *; [lia|]. rewrite <- IHa by lia. reflexivity.
  Qed.
  (** reading on after the last number is undefined, whatever the size *)
  Lemma ratio_over : forall ws vs n N done, Forall2 num ws vs -> (1 <= length ws)%nat -> (length done <= N)%nat -> (length ws < n)%nat ->
    ratio_loop lf logv n (Some (colon_list ws)) (length done) (filled N done) = UB.
  Proof.
    intros ws vs n N done F. revert n done. induction F as [|w v ws vs NV F IH]; intros n done L B LN; [simpl in L; lia|].
    destruct n; [simpl in LN; lia|]. destruct (Nat.eq_dec (length done) N) as [E|NE].
    - simpl ratio_loop. unfold scan_into. destruct (lf_head w ws v NV) as (r & E1 & _). simpl colon_list in E1. rewrite E1.
      rewrite put_over; [reflexivity|]. unfold filled. rewrite app_length, map_length, repeat_length. lia.
    - rewrite (ratio_step n N w ws v done NV) by lia. destruct ws as [|w' ws].
      + simpl in LN. destruct n; [lia|]. reflexivity.
      + replace (S (length done)) with (length (done ++ [logv v])) by (rewrite app_length; simpl; lia).
        apply IH; [simpl; lia|rewrite app_length; simpl; lia|simpl in *; lia].
  Qed.
End Prior.
