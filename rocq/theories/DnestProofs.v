(** Invariants of the sampler model (DnestModel). *)
From Coq Require Import ZArith List Bool Lia Arith Permutation Sorted.
From Verif Require Import CPrelude SortModel SortProofs ListLemmas DnestModel.
Import ListNotations.
Open Scope Z_scope.

Definition vals (ls : list level) : list dbl := map (fun l => lv (lk l)) ls.

Lemma vals_length : forall ls, length (vals ls) = length ls.
Proof. intros; apply map_length. Qed.

Lemma LEVEL_NUM_MAX_pos : (1 < LEVEL_NUM_MAX)%nat.
Proof. unfold LEVEL_NUM_MAX. lia. Qed.

Lemma mod_int_range : forall y x, 0 < x ->
  exists r, mod_int y x = Ok r /\ 0 <= r < x /\ (exists q, y = q * x + r).
Proof.
  intros y x Hx. unfold mod_int.
  destruct (x =? 0) eqn:E0; [apply Z.eqb_eq in E0; lia|].
  destruct (0 <=? y) eqn:E.
  - apply Z.leb_le in E. exists (y - Z.quot y x * x). split; [reflexivity|].
    rewrite Z.quot_div_nonneg by lia.
    pose proof (Z.mod_pos_bound y x Hx). pose proof (Z.div_mod y x ltac:(lia)).
    split; [lia|]. exists (y / x). lia.
  - apply Z.leb_gt in E. set (y' := - y - 1). exists ((x - 1) - (y' - Z.quot y' x * x)).
    split; [reflexivity|]. assert (0 <= y') by (unfold y'; lia).
    rewrite Z.quot_div_nonneg by lia.
    pose proof (Z.mod_pos_bound y' x Hx). pose proof (Z.div_mod y' x ltac:(lia)).
    split; [lia|]. exists (- (y' / x) - 1). unfold y' in *. lia.
Qed.

Lemma visit_from_lk : forall ls n v, map lk (visit_from n ls v) = map lk ls.
Proof.
  induction ls as [|l r IH]; intros n v; simpl; [reflexivity|].
  destruct n; simpl; [|rewrite IH; reflexivity].
  destruct r as [|l2 r']; [reflexivity|].
  destruct (dlt (lv (lk l2)) v); simpl; [|reflexivity].
  f_equal. apply (IH O v).
Qed.

Definition delta_ok (a b : level) : Prop :=
  0 <= exceeds b - exceeds a <= visits b - visits a /\
  0 <= accepts b - accepts a <= tries b - tries a.

Lemma delta_ok_refl : forall a, delta_ok a a.
Proof. intros a; unfold delta_ok; lia. Qed.
Lemma delta_ok_trans : forall a b c, delta_ok a b -> delta_ok b c -> delta_ok a c.
Proof. unfold delta_ok; intros; lia. Qed.

Lemma visit_from_delta : forall ls n v, Forall2 delta_ok ls (visit_from n ls v).
Proof.
  induction ls as [|l r IH]; intros n v; simpl; [constructor|].
  destruct n; simpl; [|constructor; [apply delta_ok_refl|apply IH]].
  destruct r as [|l2 r']; [repeat constructor; apply delta_ok_refl|].
  destruct (dlt (lv (lk l2)) v).
  - constructor; [unfold delta_ok; simpl; lia|apply (IH O v)].
  - constructor; [unfold delta_ok; simpl; lia|].
    apply Forall2_refl, delta_ok_refl.
Qed.

Lemma visit_from_tries : forall ls n v, map tries (visit_from n ls v) = map tries ls.
Proof.
  induction ls as [|l r IH]; intros n v; simpl; [reflexivity|].
  destruct n; simpl; [|rewrite IH; reflexivity].
  destruct r as [|l2 r']; [reflexivity|].
  destruct (dlt (lv (lk l2)) v); simpl; [|reflexivity].
  f_equal. apply (IH O v).
Qed.

Lemma sumZ_set_nth : forall (f : level -> Z) ls n a x l',
  set_nth n a ls = Some l' -> nth_error ls n = Some x ->
  sumZ (map f l') = sumZ (map f ls) + (f a - f x).
Proof.
  induction ls; intros n b x l' H Hx; simpl in *; [discriminate|].
  destruct n.
  - injection H as <-. simpl in Hx. injection Hx as ->. simpl. lia.
  - destruct (set_nth n b ls) eqn:S; [|discriminate]. injection H as <-. simpl in *.
    rewrite (IHls _ _ _ _ S Hx). lia.
Qed.

Lemma last_nth_error : forall A (l : list A) d x, nth_error l (length l - 1) = Some x -> last l d = x.
Proof.
  induction l as [|a l IH]; intros d x H; simpl in *; [discriminate|].
  destruct l as [|b l]; simpl in *; [congruence|]. apply IH. rewrite Nat.sub_0_r. exact H.
Qed.

Section Invariants.
Variable ptol_ok : list dbl -> bool.
Variable o : opts.

(** Relation kept between the threshold of a particle's level and the
    particle's likelihood: strict for a fresh run, non-strict after a
    restart. *)
Variable rel : dbl -> dbl -> bool.
Hypothesis rel_lt : forall a b, dlt a b = true -> rel a b = true.

Definition pinv (vs : list dbl) (p : particle) : Prop :=
  exists v, nth_error vs (plev p) = Some v /\ (plev p = O \/ rel v (lv (plik p)) = true).

Lemma pinv_lt : forall vs p, pinv vs p -> (plev p < length vs)%nat.
Proof. intros vs p (v & H & _). eapply nth_error_lt; eauto. Qed.

Record tinv (en : bool) (vs : list dbl) (base : list level) (kt ka : nat) (t : task) : Prop := mktinv
  { ti_np : length (parts t) = o_np o;
    ti_vals : vals (levels t) = vs;
    ti_parts : Forall (pinv vs) (parts t);
    ti_delta : Forall2 delta_ok base (levels t);
    ti_tries : sumZ (map tries (levels t)) = sumZ (map tries base) + Z.of_nat kt;
    ti_above_len : (length (above t) <= ka)%nat;
    ti_above : Forall (fun e => dlt (last vs NaN) (lv e) = true) (above t);
    ti_above_en : en = true -> above t = [];
    ti_lims : length (limits t) = alloc o }.

Definition valid_draw (d : sdraw) : Prop := (d_which d < o_np o)%nat.

Lemma update_particle_spec : forall en vs base kt ka t d,
  tinv en vs base kt ka t -> valid_draw d ->
  spec False (update_particle t d) (tinv en vs base (S kt) ka).
Proof.
  intros en vs base kt ka t d [Hnp Hv Hp Hd Ht Hl Ha Hen Hlim] Hw.
  unfold update_particle. eapply spec_bind.
  { apply get_spec; [rewrite Hnp; exact Hw|].
    intros p Hpn. exact (conj Hpn (Forall_nth_error _ _ _ _ _ Hp Hpn)). }
  intros p [Hpn Hpi]. pose proof (pinv_lt _ _ Hpi) as Hlt.
  eapply spec_bind.
  { apply get_spec; [rewrite <- vals_length, Hv; exact Hlt|]. intros lev Hlev. exact Hlev. }
  intros lev Hlev.
  set (acc := d_coin1 d && dlt (lv (lk lev)) (lv (d_lik d))).
  eapply spec_bind.
  { apply put_spec; [rewrite <- vals_length, Hv; exact Hlt|]. intros ls Hls. exact Hls. }
  intros ls Hls. eapply spec_bind.
  { apply put_spec; [rewrite Hnp; exact Hw|]. intros ps Hps. exact Hps. }
  intros ps Hps. apply spec_ok.
  assert (Hlk : map lk ls = map lk (levels t)).
  { eapply set_nth_map; [exact Hls|]. intros x Hx. rewrite Hlev in Hx. injection Hx as <-. reflexivity. }
  constructor; simpl.
  - rewrite (set_nth_length _ _ _ _ _ Hps). exact Hnp.
  - rewrite <- Hv. unfold vals. rewrite <- !(map_map lk lv), visit_from_lk, Hlk. reflexivity.
  - eapply set_nth_Forall; [exact Hps|exact Hp|].
    destruct acc eqn:Eacc; [|exact Hpi].
    unfold acc in Eacc. apply andb_true_iff in Eacc. destruct Eacc as [_ Elt].
    destruct Hpi as (v & Hv1 & _). exists v. simpl. split; [exact Hv1|]. right.
    apply rel_lt. rewrite <- Hv in Hv1. apply nth_error_map_inv in Hv1.
    destruct Hv1 as (l0 & Hl0 & <-). rewrite Hlev in Hl0. injection Hl0 as <-. exact Elt.
  - eapply Forall2_trans; [apply delta_ok_trans|exact Hd|].
    eapply Forall2_trans; [apply delta_ok_trans| |apply visit_from_delta].
    eapply Forall2_set_nth; [apply delta_ok_refl|exact Hls|exact Hlev|].
    unfold delta_ok; simpl. destruct acc; lia.
  - rewrite visit_from_tries. rewrite (sumZ_set_nth tries _ _ _ _ _ Hls Hlev). simpl. lia.
  - exact Hl.
  - exact Ha.
  - exact Hen.
  - exact Hlim.
Qed.

Lemma enough_ext : forall mx a b, vals a = vals b ->
  enough_levels ptol_ok mx a = enough_levels ptol_ok mx b.
Proof.
  intros mx a b H. assert (L : length a = length b) by (rewrite <- (vals_length a), H; apply vals_length).
  unfold vals in H. unfold enough_levels. rewrite L, H. reflexivity.
Qed.

Lemma enough_levels_noexit : forall mx ls,
  (mx = O -> (length ls < LEVEL_NUM_MAX)%nat) ->
  exists b, enough_levels ptol_ok mx ls = Ok b.
Proof.
  intros mx ls H. unfold enough_levels. destruct mx; [|eauto].
  destruct (LEVEL_NUM_MAX <=? length ls)%nat eqn:E.
  - apply Nat.leb_le in E. specialize (H eq_refl). lia.
  - destruct (length ls <? 10)%nat; eauto.
Qed.

Lemma update_level_spec : forall en vs base kt ka t d mx,
  tinv en vs base kt ka t -> valid_draw d -> (0 < length vs <= alloc o)%nat ->
  (forall ls, vals ls = vs -> enough_levels ptol_ok mx ls = Ok en) ->
  spec False (update_level_assignment ptol_ok o mx t d) (tinv en vs base kt ka).
Proof.
  intros en vs base kt ka t d mx [Hnp Hv Hp Hd Ht Hl Ha Hen Hlim] Hw Hn Hmx.
  assert (Hlen : length (levels t) = length vs) by (rewrite <- Hv, vals_length; reflexivity).
  unfold update_level_assignment. eapply spec_bind.
  { apply get_spec; [rewrite Hnp; exact Hw|].
    intros p Hpn. exact (conj Hpn (Forall_nth_error _ _ _ _ _ Hp Hpn)). }
  intros p [Hpn Hpi]. pose proof (pinv_lt _ _ Hpi) as Hlt.
  destruct (mod_int_range (d_lev d) (Z.of_nat (length (levels t)))) as (r & Er & Hr & _); [lia|].
  rewrite Er. cbn [bind]. destruct (r <? 0) eqn:E0; [apply Z.ltb_lt in E0; lia|].
  eapply spec_bind.
  { apply get_spec; [lia|]. intros lp Hlp. exact Hlp. }
  intros lp Hlp. eapply spec_bind.
  { apply get_spec; [lia|]. intros l0 Hl0. exact Hl0. }
  intros l0 Hl0. unfold log_push_check.
  destruct (length (levels t) <? Z.to_nat r)%nat eqn:E1; [apply Nat.ltb_lt in E1; lia|].
  destruct (length (levels t) <? plev p)%nat eqn:E2; [apply Nat.ltb_lt in E2; lia|].
  cbn [bind].
  rewrite (Hmx _ Hv).
  cbn [bind].
  destruct (d_coin2 d && dlt (lv (lk lp)) (lv (plik p))) eqn:Ec.
  - apply andb_true_iff in Ec. destruct Ec as [_ Ec].
    eapply spec_bind.
    { apply put_spec; [rewrite Hnp; exact Hw|]. intros ps Hps. exact Hps. }
    intros ps Hps.
    assert (Hpp : Forall (pinv vs) ps).
    { eapply set_nth_Forall; [exact Hps|exact Hp|]. exists (lv (lk lp)). simpl. split.
      - rewrite <- Hv. unfold vals. apply (nth_error_map_ok _ _ (fun l => lv (lk l))). exact Hlp.
      - right. apply rel_lt. exact Ec. }
    destruct (o_lim o).
    + eapply spec_bind.
      { apply get_spec; [rewrite Hlim; lia|]. intros row Hrow. exact Hrow. }
      intros row Hrow. eapply spec_bind.
      { apply put_spec; [rewrite Hlim; lia|]. intros lims Hlims. exact Hlims. }
      intros lims Hlims. apply spec_ok. constructor; simpl; auto.
      * rewrite (set_nth_length _ _ _ _ _ Hps). exact Hnp.
      * rewrite (set_nth_length _ _ _ _ _ Hlims). exact Hlim.
    + apply spec_ok. constructor; simpl; auto.
      rewrite (set_nth_length _ _ _ _ _ Hps). exact Hnp.
  - apply spec_ok. constructor; auto.
Qed.

Lemma mcmc_step_spec : forall en vs base k t d mx,
  tinv en vs base k k t -> valid_draw d -> (0 < length vs <= alloc o)%nat ->
  (forall ls, vals ls = vs -> enough_levels ptol_ok mx ls = Ok en) -> (k < 2 * o_nli o)%nat ->
  spec False (mcmc_step ptol_ok o mx t d) (tinv en vs base (S k) (S k)).
Proof.
  intros en vs base k t d mx Ht Hw Hn Hmx Hk. unfold mcmc_step.
  eapply spec_bind with (P := tinv en vs base (S k) k).
  { destruct (d_order d).
    - eapply spec_bind; [apply update_particle_spec; eauto|].
      intros t' Ht'. apply update_level_spec; auto.
    - eapply spec_bind; [apply update_level_spec; eauto|].
      intros t' Ht'. apply update_particle_spec; auto. }
  intros t1 Ht1. pose proof Ht1 as [Hnp Hv Hp Hd Htr Hl Ha Hab Hlim].
  assert (Hlen : length (levels t1) = length vs) by (rewrite <- Hv, vals_length; reflexivity).
  rewrite (Hmx _ Hv).
  cbn [bind]. destruct en.
  - apply spec_ok. constructor; auto; lia.
  - eapply spec_bind.
    { apply get_spec; [lia|]. intros top Htop. exact Htop. }
    intros top Htop. eapply spec_bind.
    { apply get_spec; [rewrite Hnp; exact Hw|]. intros p Hpn. exact Hpn. }
    intros p Hpn. destruct (dlt (lv (lk top)) (lv (plik p))) eqn:Ed.
    + destruct (length (above t1) <? 2 * o_nli o)%nat eqn:E; [|apply Nat.ltb_ge in E; simpl; lia].
      apply spec_ok. constructor; simpl; auto; try discriminate.
      * rewrite app_length. simpl. lia.
      * apply Forall_app. split; [exact Ha|]. constructor; [|constructor].
        rewrite <- Ed. f_equal. apply last_nth_error. rewrite <- Hv at 1. rewrite <- Hlen.
        unfold vals. apply (nth_error_map_ok _ _ (fun l => lv (lk l))). exact Htop.
    + apply spec_ok. constructor; auto; lia.
Qed.

Lemma mcmc_run_spec : forall en vs base t mx ds,
  tinv en vs base 0 0 t -> Forall valid_draw ds -> (0 < length vs <= alloc o)%nat ->
  (forall ls, vals ls = vs -> enough_levels ptol_ok mx ls = Ok en) -> (length ds <= 2 * o_nli o)%nat ->
  spec False (mcmc_run ptol_ok o mx t ds) (tinv en vs base (length ds) (length ds)).
Proof.
  intros en vs base t mx ds Ht Hds Hn Hmx. unfold mcmc_run.
  assert (G : forall ds k t, tinv en vs base k k t -> Forall valid_draw ds ->
    (k + length ds <= 2 * o_nli o)%nat ->
    spec False (foldM (mcmc_step ptol_ok o mx) ds t) (tinv en vs base (k + length ds) (k + length ds))).
  { clear ds t Ht Hds. induction ds as [|d ds IH]; intros k t Ht Hds Hk; simpl in *.
    - rewrite Nat.add_0_r. exact Ht.
    - inversion Hds; subst. eapply spec_bind; [apply mcmc_step_spec; eauto; lia|].
      intros t' Ht'. rewrite Nat.add_succ_r. apply (IH (S k)); auto. lia. }
  intros Hk. apply (G ds O t); auto.
Qed.

(** ** Merging *)

Lemma add_delta_spec : forall orig pl c,
  length pl = length orig -> length c = length orig ->
  exists r, add_delta orig pl c = Ok r /\ length r = length orig /\
    map lk r = map lk c /\
    sumZ (map tries r) = sumZ (map tries c) + (sumZ (map tries pl) - sumZ (map tries orig)) /\
    (forall j a b x, nth_error orig j = Some a -> nth_error pl j = Some b -> nth_error c j = Some x ->
       nth_error r j = Some (mklevel (lk x) (visits x + (visits b - visits a))
          (exceeds x + (exceeds b - exceeds a)) (accepts x + (accepts b - accepts a))
          (tries x + (tries b - tries a)))).
Proof.
  induction orig as [|a orig IH]; intros pl c Hp Hc; destruct pl as [|b pl]; destruct c as [|x c];
    simpl in *; try discriminate.
  - exists []. repeat split; auto. intros [|j]; discriminate.
  - destruct (IH pl c) as (r & Er & Hl & Hlk & Hs & Hn); try lia.
    rewrite Er. eexists. split; [reflexivity|]. simpl. repeat split.
    + lia.
    + f_equal. exact Hlk.
    + lia.
    + intros [|j] a0 b0 x0; simpl; [|apply Hn]. intros [= <-] [= <-] [= <-]. reflexivity.
Qed.

(** What one round adds to a counter [f] of level [j] over all tasks. *)
Definition gained (f : level -> Z) (j : nat) (base : list level) (ts : list task) : Z :=
  sumZ (map (fun t => match nth_error (levels t) j, nth_error base j with
                      | Some b, Some a => f b - f a | _, _ => 0 end) ts).

Definition add_gained (base : list level) (ts : list task) (j : nat) (x : level) : level :=
  mklevel (lk x) (visits x + gained visits j base ts) (exceeds x + gained exceeds j base ts)
    (accepts x + gained accepts j base ts) (tries x + gained tries j base ts).

Lemma combine_levels_spec : forall base ts,
  Forall (fun t => length (levels t) = length base) ts ->
  exists c, combine_levels base ts = Ok c /\ length c = length base /\ map lk c = map lk base /\
    sumZ (map tries c) = sumZ (map tries base)
       + sumZ (map (fun t => sumZ (map tries (levels t)) - sumZ (map tries base)) ts) /\
    (forall j x, nth_error base j = Some x -> nth_error c j = Some (add_gained base ts j x)).
Proof.
  intros base ts H. unfold combine_levels.
  assert (G : forall ts c, Forall (fun t => length (levels t) = length base) ts ->
    length c = length base ->
    exists r, foldM (fun c t => add_delta base (levels t) c) ts c = Ok r /\
      length r = length base /\ map lk r = map lk c /\
      sumZ (map tries r) = sumZ (map tries c)
        + sumZ (map (fun t => sumZ (map tries (levels t)) - sumZ (map tries base)) ts) /\
      (forall j x, nth_error c j = Some x -> nth_error r j = Some (add_gained base ts j x))).
  { clear ts H. induction ts as [|t ts IH]; intros c HF Hc; simpl.
    - exists c. repeat split; auto; [lia|]. intros j x Hx. rewrite Hx. f_equal.
      unfold add_gained, gained. simpl. destruct x; simpl. f_equal; lia.
    - inversion HF as [|? ? Ht HF']; subst.
      destruct (add_delta_spec base (levels t) c) as (r & Er & Hl & Hlk & Hs & Hn); auto.
      rewrite Er. cbn [bind]. destruct (IH r HF' Hl) as (r' & Er' & Hl' & Hlk' & Hs' & Hn').
      exists r'. repeat split; auto; try lia; try congruence.
      intros j x Hx.
      assert (Hj : (j < length base)%nat) by (rewrite <- Hc; eapply nth_error_lt; eauto).
      destruct (nth_error base j) as [a|] eqn:Ea; [|apply nth_error_None in Ea; lia].
      destruct (nth_error (levels t) j) as [b|] eqn:Eb; [|apply nth_error_None in Eb; lia].
      rewrite (Hn' j _ (Hn j a b x Ea Eb Hx)). f_equal.
      unfold add_gained, gained. simpl. rewrite Ea, Eb. f_equal; lia. }
  apply G; auto.
Qed.

Definition cnt_ok (l : level) : Prop :=
  0 <= exceeds l <= visits l /\ 0 <= accepts l <= tries l.

Lemma cnt_ok_delta : forall a b, cnt_ok a -> delta_ok a b -> cnt_ok b.
Proof. unfold cnt_ok, delta_ok; intros; lia. Qed.

Lemma gained_delta : forall base ts j a,
  Forall (fun t => Forall2 delta_ok base (levels t)) ts -> nth_error base j = Some a ->
  0 <= gained exceeds j base ts <= gained visits j base ts /\
  0 <= gained accepts j base ts <= gained tries j base ts.
Proof.
  intros base ts j a H Ha. unfold gained. induction H as [|t ts Ht _ IH]; simpl; [lia|].
  rewrite Ha in *. destruct (Forall2_nth _ _ _ _ _ _ _ Ht Ha) as (b & -> & Hb).
  unfold delta_ok in Hb. lia.
Qed.

Lemma combine_cnt_ok : forall base ts c,
  Forall (fun t => Forall2 delta_ok base (levels t)) ts ->
  length c = length base ->
  (forall j x, nth_error base j = Some x -> nth_error c j = Some (add_gained base ts j x)) ->
  Forall cnt_ok base -> Forall cnt_ok c.
Proof.
  intros base ts c Hts Hl Hn Hb. apply Forall_forall. intros y Hy.
  apply In_nth_error in Hy. destruct Hy as [j Hj].
  assert (Hjl : (j < length base)%nat) by (rewrite <- Hl; eapply nth_error_lt; eauto).
  destruct (nth_error base j) as [x|] eqn:Ex; [|apply nth_error_None in Ex; lia].
  rewrite (Hn j x Ex) in Hj. injection Hj as <-.
  pose proof (gained_delta base ts j x Hts Ex) as G.
  pose proof (Forall_nth_error _ _ _ _ _ Hb Ex) as C. unfold cnt_ok in *. simpl. lia.
Qed.

Lemma renorm_cnt_ok : forall reg l, 0 <= reg -> cnt_ok l -> cnt_ok (renorm_level reg l).
Proof.
  intros reg l Hr [[He1 He2] [Ha1 Ha2]].
  assert (Q : forall e v, 0 <= e <= v -> 0 <= (e + 1) * reg / (v + 1) <= reg).
  { intros e v H. split.
    - apply Z.div_pos; nia.
    - apply Z.div_le_upper_bound; nia. }
  unfold renorm_level, cnt_ok.
  destruct (reg <=? tries l); simpl; destruct (reg <=? visits l); simpl;
    repeat split; try lia; try (apply Q; lia).
Qed.

Lemma renorm_lk : forall reg l, lk (renorm_level reg l) = lk l.
Proof. intros reg l. unfold renorm_level. destruct (reg <=? tries l); simpl; destruct (reg <=? visits l); reflexivity. Qed.

(** ** Replacing lagging particles *)

Definition valid_kill (k : kdraw) : Prop :=
  length (k_bad k) = o_np o /\
  Forall (Forall (fun c => (fst c < o_np o)%nat)) (k_cand k).

Lemma pick_spec : forall good cs, Forall (fun c => (fst c < length good)%nat) cs ->
  spec False (pick good cs) (fun c => nth_error good c = Some true).
Proof.
  intros good cs H. induction H as [|[c coin] cs Hc _ IH]; simpl; [exact I|].
  eapply spec_bind; [apply get_spec; [exact Hc|intros g Hg; exact Hg]|].
  intros g Hg. destruct (g && coin) eqn:E.
  - apply andb_true_iff in E. destruct E as [-> _]. exact Hg.
  - exact IH.
Qed.

(** Particle [i] of the result relative to the original [ps0]. *)
Definition survivor_copy (good : list bool) (ps0 : list particle) (i : nat) (p : particle) : Prop :=
  match nth_error good i with
  | Some true | None => nth_error ps0 i = Some p
  | Some false => exists c, nth_error good c = Some true /\ nth_error ps0 c = Some p
  end.

Lemma replace_from_spec : forall ps0 good, length ps0 = length good ->
  forall gs i cands ps,
  skipn i good = gs -> length ps = length ps0 ->
  Forall (Forall (fun c => (fst c < length good)%nat)) cands ->
  (forall j p, (j < i)%nat -> nth_error ps j = Some p -> survivor_copy good ps0 j p) ->
  (forall j, (i <= j)%nat -> nth_error ps j = nth_error ps0 j) ->
  spec False (replace_from i good gs cands ps)
    (fun ps' => length ps' = length ps0 /\
       forall j p, nth_error ps' j = Some p -> survivor_copy good ps0 j p).
Proof.
  intros ps0 good Hl0. induction gs as [|g gs IH]; intros i cands ps Hg Hl Hc Hlo Hhi; simpl.
  - split; [exact Hl|]. intros j p Hj.
    destruct (Nat.lt_ge_cases j i) as [H|H]; [auto|].
    unfold survivor_copy.
    assert (length good <= i)%nat.
    { assert (L : length (skipn i good) = O) by (rewrite Hg; reflexivity). rewrite skipn_length in L. lia. }
    assert (N : nth_error good j = None) by (apply nth_error_None; lia).
    rewrite N. rewrite <- Hhi; auto.
  - destruct cands as [|cs cands]; [exact I|]. inversion Hc as [|? ? Hcs Hc']; subst.
    assert (Hgi : nth_error good i = Some g).
    { rewrite <- (firstn_skipn i good), Hg. rewrite nth_error_app2; rewrite firstn_length.
      - assert (L : length (skipn i good) = S (length gs)) by (rewrite Hg; reflexivity).
        rewrite skipn_length in L. rewrite Nat.min_l by lia. rewrite Nat.sub_diag. reflexivity.
      - lia. }
    assert (Hil : (i < length good)%nat) by (eapply nth_error_lt; eauto).
    assert (Hsk : skipn (S i) good = gs).
    { clear -Hg. revert i Hg. induction good as [|x good IHg]; intros i Hg; destruct i; simpl in *; try discriminate.
      - congruence.
      - apply IHg. exact Hg. }
    eapply spec_bind with (P := fun ps' => length ps' = length ps0 /\
      (forall j p, (j < S i)%nat -> nth_error ps' j = Some p -> survivor_copy good ps0 j p) /\
      (forall j, (S i <= j)%nat -> nth_error ps' j = nth_error ps0 j)).
    + destruct g.
      * apply spec_ok. repeat split; auto.
        { intros j p Hj Hp. destruct (Nat.eq_dec j i) as [->|]; [|apply Hlo; auto; lia].
          unfold survivor_copy. rewrite Hgi. rewrite <- Hhi; auto. }
        { intros j Hj. apply Hhi. lia. }
      * eapply spec_bind; [apply pick_spec; exact Hcs|]. intros c Hcg. cbv beta in Hcg.
        assert (Hcl : (c < length good)%nat) by (eapply nth_error_lt; eauto).
        eapply spec_bind.
        { apply get_spec; [lia|]. intros p Hp. exact Hp. }
        intros p Hp. apply put_spec; [lia|]. intros l' Hl'.
        assert (Hci : c <> i) by (intros ->; congruence).
        assert (Hp0 : nth_error ps0 c = Some p).
        { destruct (Nat.lt_ge_cases c i) as [H|H].
          - specialize (Hlo c p H Hp). unfold survivor_copy in Hlo. rewrite Hcg in Hlo. exact Hlo.
          - rewrite <- Hhi; auto. }
        repeat split.
        { rewrite (set_nth_length _ _ _ _ _ Hl'). exact Hl. }
        { intros j q Hj Hq. destruct (Nat.eq_dec j i) as [->|Hne].
          - rewrite (set_nth_eq _ _ _ _ _ Hl') in Hq. injection Hq as <-.
            unfold survivor_copy. rewrite Hgi. eauto.
          - rewrite (set_nth_neq _ _ _ _ _ _ Hl' Hne) in Hq. apply Hlo; auto. lia. }
        { intros j Hj. rewrite (set_nth_neq _ _ _ _ _ _ Hl') by lia. apply Hhi. lia. }
    + intros ps' (H1 & H2 & H3). apply IH; auto.
Qed.

Lemma kill_lagging_spec : forall ls ps k,
  length ps = o_np o -> valid_kill k ->
  Forall (fun p => (plev p < length ls)%nat) ps ->
  spec False (kill_lagging o ls ps k)
    (fun ps' => length ps' = length ps /\
       ((exists b, In b (k_bad k) /\ b = false) \/ o_np o = O ->
          forall j p, nth_error ps' j = Some p -> survivor_copy (map negb (k_bad k)) ps j p) /\
       (k_bad k = repeat true (o_np o) -> ps' = ps)).
Proof.
  intros ls ps k Hn [Hk1 Hk2] Hp. unfold kill_lagging.
  eapply spec_bind with (P := fun _ => True).
  { eapply spec_impl with (E := False) (P := Forall2 (fun (_ : particle) (_ : unit) => True) ps); [|auto|auto].
    apply mapM_spec. intros p Hin. unfold log_push_check. rewrite Forall_forall in Hp. specialize (Hp p Hin).
    destruct (length ls <? plev p)%nat eqn:E; [apply Nat.ltb_lt in E; lia|exact I]. }
  intros _ _.
  assert (Hle : (count_occ bool_dec (k_bad k) true <= length (k_bad k))%nat) by apply count_occ_bound.
  destruct (count_occ bool_dec (k_bad k) true <? o_np o)%nat eqn:E.
  - eapply spec_impl.
    + apply (replace_from_spec ps (map negb (k_bad k))); rewrite ?map_length; auto; try lia.
      rewrite Hk1. exact Hk2.
    + auto.
    + intros ps' [H1 H2]. repeat split; auto. intros Hr. apply Nat.ltb_lt in E.
      rewrite Hr in E. rewrite count_occ_repeat_eq in E by reflexivity. lia.
  - apply spec_ok. apply Nat.ltb_ge in E. repeat split; auto.
    intros [[b [Hb ->]]|H0] j p Hj.
    + exfalso. assert (F : (count_occ bool_dec (k_bad k) true < length (k_bad k))%nat).
      { clear -Hb. induction (k_bad k) as [|x l IH]; [destruct Hb|]. simpl.
        destruct Hb as [->|Hb].
        - simpl. destruct (bool_dec false true); [discriminate|].
          pose proof (count_occ_bound bool_dec true l). lia.
        - specialize (IH Hb). destruct (bool_dec x true); lia. }
      lia.
    + rewrite H0 in Hn. destruct ps; [destruct j; discriminate|discriminate].
Qed.

End Invariants.
