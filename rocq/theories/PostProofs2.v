(** Post-processing as a whole. *)
From Coq Require Import Reals ZArith List Bool Lia Lra Psatz Arith Permutation Sorting.Sorted.
From Verif Require Import CPrelude ListLemmas SortModel SortProofs LogXProofs PostModel PostProofs.
Import ListNotations.
Open Scope R_scope.

Lemma mapM_total : forall A B (f : A -> outcome B) (g : A -> B) l,
  (forall a, In a l -> f a = Ok (g a)) -> mapM f l = Ok (map g l).
Proof.
  induction l; intros H; simpl; [reflexivity|]. rewrite H by (simpl; auto). simpl.
  rewrite IHl; [reflexivity|]. intros; apply H; simpl; auto.
Qed.

Lemma F2_length : forall A B (P : A -> B -> Prop) l m, Forall2 P l m -> length l = length m.
Proof. induction 1; simpl; auto. Qed.

Lemma mapM_nth : forall A B (f : A -> outcome B) l r, mapM f l = Ok r ->
  length r = length l /\ forall i a, nth_error l i = Some a -> exists b, f a = Ok b /\ nth_error r i = Some b.
Proof.
  induction l as [|a l IH]; intros r H; simpl in H.
  - injection H as <-. split; [reflexivity|]. intros [|i] a E; discriminate.
  - destruct (f a) eqn:F; try discriminate. cbn [bind] in H. destruct (mapM f l) eqn:M; try discriminate.
    injection H as <-. destruct (IH _ eq_refl) as [IL IN]. split; [simpl; lia|].
    intros [|i] x E; simpl in *; [injection E as <-; eauto|eauto].
Qed.

Lemma store_all : forall A (es : list (nat * A)) (arr : list (option A)),
  NoDup (map fst es) -> Forall (fun e => (fst e < length arr)%nat) es ->
  exists arr', foldM (fun a e => put a (fst e) (Some (snd e))) es arr = Ok arr' /\
    length arr' = length arr /\
    (forall e, In e es -> nth_error arr' (fst e) = Some (Some (snd e))) /\
    (forall k, ~ In k (map fst es) -> nth_error arr' k = nth_error arr k).
Proof.
  induction es as [|e es IH]; intros arr N B; simpl.
  - exists arr. repeat split; auto. intros e [].
  - inversion N; subst. inversion B; subst.
    unfold put. destruct (set_nth_some _ arr (fst e) (Some (snd e)) H3) as [a1 E1]. rewrite E1. cbn [bind].
    pose proof (set_nth_length _ _ _ _ _ E1) as L1.
    destruct (IH a1) as (a2 & E2 & L2 & S2 & U2); auto.
    { rewrite L1. exact H4. }
    exists a2. unfold put in E2. rewrite E2. split; [reflexivity|]. split; [lia|]. split.
    + intros e' [<-|I]; [|auto]. rewrite U2 by auto. eapply set_nth_eq; eauto.
    + intros k K. rewrite U2 by tauto. eapply set_nth_neq; eauto.
Qed.

(** * Sandwiching *)
Definition base_level (nl : nat) (s : sinfo) : nat := Nat.min (Z.to_nat (si_level s)) (nl - 1).

Lemma sandwich_loop : forall levels logl js cur c0,
  (forall j, In j js -> (j < length levels)%nat) ->
  exists r, foldM (fun cur j => l <- get levels j ;;
           Ok (if Rlt_dec (pl_logL l) logl then j else cur)) js cur = Ok r /\
    ((r = cur /\ (forall j l, In j js -> nth_error levels j = Some l -> logl <= pl_logL l)) \/
     (exists a b l, js = a ++ r :: b /\ nth_error levels r = Some l /\ pl_logL l < logl /\
        (forall j l, In j b -> nth_error levels j = Some l -> logl <= pl_logL l))) /\ c0 = c0 :> nat.
Proof.
  induction js as [|j js IH]; intros cur c0 H; simpl.
  - exists cur. repeat split. left. split; [reflexivity|]. intros j l [].
  - assert (J : (j < length levels)%nat) by (apply H; simpl; auto).
    unfold get at 1. destruct (nth_error levels j) as [l|] eqn:E.
    2: { apply nth_error_None in E. lia. }
    cbn [bind]. destruct (IH (if Rlt_dec (pl_logL l) logl then j else cur) c0) as (r & F & [[Er G]|G] & _).
    + intros; apply H; simpl; auto.
    + exists r. rewrite F. split; [reflexivity|]. split; [|reflexivity].
      destruct (Rlt_dec (pl_logL l) logl) as [L|L].
      * right. exists [], js, l. subst r. repeat split; auto.
      * left. split; auto. intros k l' [<-|I] N; [|eauto]. rewrite E in N. injection N as <-. lra.
    + destruct G as (a & b & l' & E1 & E2 & E3 & E4). exists r. rewrite F. split; [reflexivity|].
      split; [|reflexivity]. right. exists (j :: a), b, l'. subst js. repeat split; auto.
Qed.

Definition sits_prop (levels : list plevel) (base : nat) (logl : R) (i : nat) : Prop :=
  (base <= i < length levels)%nat /\
  (i = base \/ exists l, nth_error levels i = Some l /\ pl_logL l < logl) /\
  (forall j l, (i < j)%nat -> nth_error levels j = Some l -> logl <= pl_logL l).

Lemma sits_unique : forall levels b l i j, sits_prop levels b l i -> sits_prop levels b l j -> i = j.
Proof.
  assert (W : forall levels b l i j, sits_prop levels b l i -> sits_prop levels b l j -> (i < j)%nat -> False).
  { intros levels b l i j ((A1 & A2) & A3 & A4) ((B1 & B2) & B3 & B4) H.
    destruct B3 as [->|(x & X1 & X2)]; [lia|]. specialize (A4 j x H X1). lra. }
  intros levels b l i j A B. destruct (lt_eq_lt_dec i j) as [[H|H]|H]; auto; exfalso; eauto.
Qed.

Lemma clamp_props : forall nl s, (0 < nl)%nat -> (0 <= si_level s)%Z ->
  si_logl (clamp_level nl s) = si_logl s /\ si_tb (clamp_level nl s) = si_tb s /\
  (0 <= si_level (clamp_level nl s))%Z /\ Z.to_nat (si_level (clamp_level nl s)) = base_level nl s.
Proof.
  intros nl s H L. unfold clamp_level, base_level.
  destruct (Z.ltb_spec (Z.of_nat nl - 1) (si_level s)); simpl; repeat split; auto; lia.
Qed.

Lemma sandwich_ok : forall levels s, levels <> [] -> (0 <= si_level s)%Z ->
  exists i, sandwich levels (clamp_level (length levels) s) = Ok i /\
    sits_prop levels (base_level (length levels) s) (si_logl s) i.
Proof.
  intros levels s N H.
  assert (NL : (0 < length levels)%nat) by (destruct levels; [congruence|simpl; lia]).
  destruct (clamp_props _ s NL H) as (C1 & C2 & C3 & C4). unfold sandwich.
  destruct (Z.ltb_spec (si_level (clamp_level (length levels) s)) 0); [lia|].
  rewrite C4, C1. set (b := base_level (length levels) s).
  assert (B : (b < length levels)%nat) by (unfold b, base_level; lia).
  destruct (sandwich_loop levels (si_logl s) (seq b (length levels - b)) b O) as (r & E & G & _).
  { intros j I. apply in_seq in I. lia. }
  exists r. split; [exact E|]. destruct G as [[-> G]|(x & y & l & E1 & E2 & E3 & E4)].
  - split; [lia|]. split; [auto|]. intros j l J N1. apply (G j l); auto. apply in_seq.
    apply nth_error_lt in N1. lia.
  - assert (I : In r (seq b (length levels - b))) by (rewrite E1; apply in_elt).
    apply in_seq in I. split; [lia|]. split; [right; eauto|].
    intros j l' J N1. apply (E4 j l'); auto.
    assert (I2 : In j (seq b (length levels - b))) by (apply in_seq; apply nth_error_lt in N1; lia).
    rewrite E1 in I2. apply in_app_or in I2. destruct I2 as [I2|[->|I2]]; [|lia|auto]. exfalso.
    assert (SS : forall m k, StronglySorted lt (seq k m)).
    { induction m; intros k; simpl; constructor; auto. apply Forall_forall. intros z Z. apply in_seq in Z. lia. }
    specialize (SS (length levels - b)%nat b). rewrite E1 in SS. clear - SS I2 J.
    induction x as [|u x IH]; [destruct I2|]. simpl in SS. inversion SS; subst.
    destruct I2 as [->|I2]; [|auto]. rewrite Forall_forall in H2. specialize (H2 r (in_elt _ _ _)). lia.
Qed.

(** * Members of a level *)
Lemma members_in : forall (sw : list nat) (info : list sinfo) i m, length sw = length info ->
  (In m (members sw info i) <->
   exists s, nth_error info (m_id m) = Some s /\ nth_error sw (m_id m) = Some i /\
     m_logl m = si_logl s /\ m_tb m = si_tb s).
Proof.
  assert (G : forall (info : list sinfo) (sw : list nat) i k m, length sw = length info ->
    (In m (flat_map (fun x => let '(j, (s, w)) := x in
                     if Nat.eqb w i then [mkm (si_logl s) (si_tb s) j] else [])
           (combine (seq k (length info)) (combine info sw))) <->
     exists d s, m_id m = (k + d)%nat /\ nth_error info d = Some s /\ nth_error sw d = Some i /\
     m_logl m = si_logl s /\ m_tb m = si_tb s)).
  { induction info as [|s info IH]; intros [|w sw] i k m L; simpl in L; try discriminate; simpl.
    - split; [tauto|]. intros (d & s & _ & E & _). destruct d; discriminate.
    - rewrite in_app_iff. rewrite (IH sw i (S k) m) by lia. split.
      + intros [I|(d & s' & E1 & E2 & E3 & E4)].
        * destruct (Nat.eqb_spec w i); [|destruct I]. destruct I as [<-|[]]. subst.
          exists O, s. simpl. repeat split; auto; lia.
        * exists (S d), s'. simpl. repeat split; try tauto; lia.
      + intros (d & s' & E1 & E2 & E3 & E4 & E5). destruct d; simpl in *.
        * left. injection E2 as <-. injection E3 as ->. rewrite Nat.eqb_refl. left.
          destruct m; simpl in *; subst. f_equal; auto.
        * right. exists d, s'. repeat split; auto; lia. }
  intros sw info i m L. unfold members. rewrite G by auto. split.
  - intros (d & s & E1 & E2). rewrite Nat.add_0_l in E1. subst d. exists s. tauto.
  - intros (s & E). exists (m_id m), s. tauto.
Qed.

Lemma members_nodup : forall (sw : list nat) (info : list sinfo) i, NoDup (map m_id (members sw info i)).
Proof.
  intros sw info i. unfold members. generalize (seq_NoDup (length info) 0).
  generalize (combine info sw). generalize (seq 0 (length info)).
  induction l as [|j l IH]; intros [|[s w] c] N; simpl; try constructor.
  inversion N; subst. rewrite map_app. destruct (Nat.eqb w i); simpl; [|auto].
  constructor; [|auto]. intros I. apply in_map_iff in I. destruct I as (m & <- & I).
  apply in_flat_map in I. destruct I as ([j' [s' w']] & I1 & I2).
  destruct (Nat.eqb w' i); [|destruct I2]. destruct I2 as [<-|[]]. simpl in H1.
  apply in_combine_l in I1. auto.
Qed.

(** * The loop over levels *)
Record wf (levels : list plevel) (info : list sinfo) : Prop := {
  wf_levels : levels <> [];
  wf_info : info <> [];
  wf_dec : forall i a b, nth_error levels i = Some a -> nth_error levels (S i) = Some b -> pl_logX b < pl_logX a;
  wf_floor : forall l, In l levels -> - IZR (10 ^ 300) < pl_logX l;
  wf_level : forall s, In s info -> (0 <= si_level s)%Z }.

Definition bottom_of (levels : list plevel) (i : nat) : R :=
  match nth_error levels (S i) with Some l => pl_logX l | None => - IZR (10 ^ 300) end.

Lemma logx_bottom_ok : forall levels i, (i < length levels)%nat -> logx_bottom levels i = Ok (bottom_of levels i).
Proof.
  intros levels i H. unfold logx_bottom, bottom_of. replace (i + 1)%nat with (S i) by lia.
  destruct (Nat.eqb_spec (S i) (length levels)).
  - destruct (nth_error levels (S i)) eqn:E; [apply nth_error_lt in E; lia|reflexivity].
  - unfold get. destruct (nth_error levels (S i)) eqn:E; [reflexivity|]. apply nth_error_None in E. lia.
Qed.

Lemma bottom_lt : forall levels info i l, wf levels info -> nth_error levels i = Some l ->
  bottom_of levels i < pl_logX l.
Proof.
  intros levels info i l W E. unfold bottom_of. destruct (nth_error levels (S i)) eqn:F.
  - eapply wf_dec; eauto.
  - eapply wf_floor; eauto. eapply nth_error_In; eauto.
Qed.

Definition entry (top bottom : R) (n : nat) (jm : nat * member) : nat * (nr * nr) :=
  (m_id (snd jm), ((if Nat.eqb n 1 then None else Some (xval top bottom n (fst jm))),
     Some (ln (1 / 2) + ln (exp (rightv top bottom n (fst jm)) - exp (leftv top bottom n (fst jm)))))).

Definition sorted_members sw info i := msort cmp_member (members sw info i).

Lemma sorted_len : forall sw info i, length (sorted_members sw info i) = length (members sw info i).
Proof. intros. apply Permutation_length. apply msort_perm. Qed.

Lemma map_snd_combine : forall A B (l : list A) (m : list B), length l = length m -> map snd (combine l m) = m.
Proof. induction l; intros [|b m] L; simpl in *; try discriminate; [reflexivity|]. f_equal. auto. Qed.

Lemma nth_combine_seq : forall A (l : list A) k n j m, length l = n -> nth_error l j = Some m ->
  nth_error (combine (seq k n) l) j = Some ((k + j)%nat, m).
Proof.
  induction l as [|a l IH]; intros k n j m L E; [destruct j; discriminate|].
  destruct n; simpl in L; [discriminate|]. destruct j; simpl in *.
  - injection E as <-. f_equal. f_equal. lia.
  - rewrite (IH (S k) n j m) by (auto; lia). f_equal. f_equal. lia.
Qed.

Lemma do_level_ok : forall levels info0 info sw arr i l, wf levels info0 -> nth_error levels i = Some l ->
  length sw = length info -> length arr = length info ->
  exists arr', do_level levels sw info arr i = Ok arr' /\ length arr' = length arr /\
    (forall j m, nth_error (sorted_members sw info i) j = Some m ->
       nth_error arr' (m_id m) =
       Some (Some (snd (entry (pl_logX l) (bottom_of levels i) (length (members sw info i)) (j, m))))) /\
    (forall k, nth_error sw k <> Some i -> nth_error arr' k = nth_error arr k).
Proof.
  intros levels info0 info sw arr i l W E L A. unfold do_level, get. rewrite E. cbn [bind].
  rewrite logx_bottom_ok by (eapply nth_error_lt; eauto). cbn [bind].
  set (n := length (members sw info i)). fold (sorted_members sw info i).
  pose proof (sorted_len sw info i) as SL. fold n in SL.
  pose proof (bottom_lt _ _ _ _ W E) as BL.
  rewrite (mapM_total _ _ _ (entry (pl_logX l) (bottom_of levels i) n)).
  2: { intros [j m] I. cbn [fst snd]. apply store_entry_ok; auto.
       apply in_combine_l in I. apply in_seq in I. lia. }
  cbn [bind].
  assert (MF : map fst (map (entry (pl_logX l) (bottom_of levels i) n) (combine (seq 0 n) (sorted_members sw info i)))
     = map m_id (sorted_members sw info i)).
  { rewrite map_map. cbn [entry fst]. rewrite <- (map_map snd m_id).
    rewrite map_snd_combine by (rewrite seq_length; auto). reflexivity. }
  assert (PI : Permutation (members sw info i) (sorted_members sw info i)) by (apply Permutation_sym, msort_perm).
  destruct (store_all _ (map (entry (pl_logX l) (bottom_of levels i) n) (combine (seq 0 n) (sorted_members sw info i))) arr)
    as (arr' & F1 & F2 & F3 & F4).
  - rewrite MF. eapply Permutation_NoDup; [apply Permutation_map; exact PI|]. apply members_nodup.
  - apply Forall_forall. intros e I. apply (in_map fst) in I. rewrite MF in I. apply in_map_iff in I.
    destruct I as (m & <- & I). apply Permutation_sym in PI. apply (Permutation_in _ PI) in I.
    apply members_in in I; auto. destruct I as (s & I & _). apply nth_error_lt in I. lia.
  - exists arr'. split; [exact F1|]. split; [exact F2|]. split.
    + intros j m N. apply (F3 (entry (pl_logX l) (bottom_of levels i) n (j, m))).
      apply in_map. eapply nth_error_In. rewrite (nth_combine_seq _ _ 0 n j m); auto.
    + intros k K. apply F4. rewrite MF. intros I. apply in_map_iff in I.
      destruct I as (m & <- & I). apply Permutation_sym in PI. apply (Permutation_in _ PI) in I.
      apply members_in in I; auto. destruct I as (s & _ & I & _). auto.
Qed.

Lemma levels_loop : forall levels info0 info sw, wf levels info0 -> length sw = length info ->
  exists arr, foldM (do_level levels sw info) (seq 0 (length levels)) (repeat None (length info)) = Ok arr /\
    length arr = length info /\
    (forall i l, nth_error levels i = Some l -> forall j m, nth_error (sorted_members sw info i) j = Some m ->
       nth_error arr (m_id m) =
       Some (Some (snd (entry (pl_logX l) (bottom_of levels i) (length (members sw info i)) (j, m))))).
Proof.
  intros levels info0 info sw W L.
  assert (G : forall n k arr, (k + n = length levels)%nat -> length arr = length info ->
    (forall i l, (i < k)%nat -> nth_error levels i = Some l -> forall j m, nth_error (sorted_members sw info i) j = Some m ->
       nth_error arr (m_id m) =
       Some (Some (snd (entry (pl_logX l) (bottom_of levels i) (length (members sw info i)) (j, m))))) ->
    exists arr', foldM (do_level levels sw info) (seq k n) arr = Ok arr' /\
    length arr' = length info /\
    (forall i l, nth_error levels i = Some l -> forall j m, nth_error (sorted_members sw info i) j = Some m ->
       nth_error arr' (m_id m) =
       Some (Some (snd (entry (pl_logX l) (bottom_of levels i) (length (members sw info i)) (j, m)))))).
  { induction n as [|n IH]; intros k arr K A H; simpl.
    - exists arr. split; [reflexivity|]. split; [auto|]. intros i l E. apply H; auto.
      apply nth_error_lt in E. lia.
    - destruct (nth_error levels k) as [lk|] eqn:EK; [|apply nth_error_None in EK; lia].
      destruct (do_level_ok levels info0 info sw arr k lk) as (a1 & F1 & F2 & F3 & F4); auto.
      rewrite F1. cbn [bind]. apply IH; [lia|lia|].
      intros i l I E j m N. destruct (Nat.eq_dec i k) as [->|NE].
      + rewrite EK in E. injection E as <-. apply F3. exact N.
      + rewrite F4; [apply H; auto; lia|].
        assert (IM : In m (members sw info i)).
        { eapply Permutation_in; [apply msort_perm|]. eapply nth_error_In; eauto. }
        apply members_in in IM; auto. destruct IM as (s & _ & IM & _). congruence. }
  apply (G (length levels) O); auto; [apply repeat_length|]. intros; lia.
Qed.

(** * Everything together *)
Definition base_of levels info s := sits_prop levels (base_level (length levels) s) (si_logl s) info.

Record post_facts (T : R) (levels : list plevel) (info : list sinfo) (p : post) (sw : list nat) (lp : list R) : Prop := {
  pf_sw : Forall2 (fun s i => sits_prop levels (base_level (length levels) s) (si_logl s) i) info sw;
  pf_len : length lp = length info;
  pf_lenx : length (po_logx p) = length info;
  pf_entry : forall i l, nth_error levels i = Some l -> forall j m,
     let cl := map (clamp_level (length levels)) info in
     let n := length (members sw cl i) in
     nth_error (sorted_members sw cl i) j = Some m ->
     nth_error (po_logx p) (m_id m) = Some (if Nat.eqb n 1 then None else Some (xval (pl_logX l) (bottom_of levels i) n j)) /\
     nth_error lp (m_id m) = Some (ln (1 / 2) + ln (exp (rightv (pl_logX l) (bottom_of levels i) n j) - exp (leftv (pl_logX l) (bottom_of levels i) n j)));
  pf_logl : po_logl p = map (fun s => si_logl s / T) info;
  pf_logp : po_logp p = lsub (ln (sumR exp lp)) lp;
  pf_logz : po_logz p = ln (sumR exp (map (fun x => fst x + snd x) (combine (po_logp p) (po_logl p))));
  pf_logP : po_logP p = lsub (po_logz p) (map (fun x => fst x + snd x) (combine (po_logp p) (po_logl p)));
  pf_H : po_H p = - po_logz p + sumR (fun x => exp (fst x) * snd x) (combine (po_logP p) (po_logl p));
  pf_ESS : po_ESS p = exp (sumR (fun v => - v * exp v) (po_logP p));
  pf_num : po_num_ps p = Int_part (po_ESS p);
  pf_rel : exists mx, In mx (po_logP p) /\ (forall v, In v (po_logP p) -> v <= mx) /\ po_rel p = lsub mx (po_logP p) }.

Lemma map_clamp_logl : forall T nl info, map (fun s => si_logl s / T) (map (clamp_level nl) info) = map (fun s => si_logl s / T) info.
Proof. intros. rewrite map_map. apply map_ext. intros s. unfold clamp_level. destruct (_ <? _)%Z; reflexivity. Qed.

Lemma mapM_sandwich : forall levels info, levels <> [] -> (forall s, In s info -> (0 <= si_level s)%Z) ->
  exists sw, mapM (sandwich levels) (map (clamp_level (length levels)) info) = Ok sw /\
  Forall2 (fun s i => sits_prop levels (base_level (length levels) s) (si_logl s) i) info sw.
Proof.
  intros levels info N. induction info as [|s info IH]; intros H; simpl.
  - exists []. split; auto.
  - destruct (sandwich_ok levels s N) as (i & E & S1); [apply H; simpl; auto|].
    destruct IH as (sw & E2 & F); [intros; apply H; simpl; auto|].
    rewrite E. cbn [bind]. rewrite E2. cbn [bind]. exists (i :: sw). split; auto.
Qed.

Lemma fold_maxr : forall l a, fold_left (fun m p => Rmax p m) l a = fold_left Rmax l a.
Proof. induction l; intros; simpl; [reflexivity|]. rewrite IHl. f_equal. apply Rmax_comm. Qed.

Theorem post_main : forall T levels info, wf levels info ->
  exists p sw lp, postprocess T levels info = Ok p /\ post_facts T levels info p sw lp.
Proof.
  intros T levels info W. unfold postprocess.
  set (cl := map (clamp_level (length levels)) info).
  assert (CL : length cl = length info) by (apply map_length).
  destruct (mapM_sandwich levels info (wf_levels _ _ W) (wf_level _ _ W)) as (sw & E1 & F).
  fold cl in E1. rewrite E1. cbn [bind].
  assert (SL : length sw = length cl) by (rewrite CL; symmetry; eapply F2_length; eauto).
  destruct (levels_loop levels info cl sw W SL) as (arr & E2 & AL & AE). rewrite E2. cbn [bind].
  assert (V : forall k, (k < length cl)%nat -> exists x y, nth_error arr k = Some (Some (x, Some y))).
  { intros k K. destruct (nth_error cl k) as [s|] eqn:EC; [|apply nth_error_None in EC; lia].
    destruct (nth_error sw k) as [i|] eqn:ES; [|apply nth_error_None in ES; lia].
    assert (IM : In (mkm (si_logl s) (si_tb s) k) (members sw cl i)).
    { apply members_in; auto. exists s. simpl. auto. }
    assert (IS : In (mkm (si_logl s) (si_tb s) k) (sorted_members sw cl i)).
    { eapply Permutation_in; [apply Permutation_sym, msort_perm|exact IM]. }
    apply In_nth_error in IS. destruct IS as [j IS].
    assert (IL : (i < length levels)%nat).
    { unfold cl in EC. apply nth_error_map_inv in EC. destruct EC as (s0 & EC & _).
      destruct (Forall2_nth _ _ _ _ _ _ _ F EC) as (i' & I1 & ((_ & I2) & _)). congruence. }
    destruct (nth_error levels i) as [l|] eqn:EL; [|apply nth_error_None in EL; lia].
    specialize (AE i l EL j _ IS). simpl in AE. rewrite AE. eauto. }
  assert (VV : exists vals, mapM initialised arr = Ok vals /\ length vals = length arr /\
      (forall k v, nth_error arr k = Some (Some v) -> nth_error vals k = Some v) /\
      exists lp, mapM real_of (map snd vals) = Ok lp /\ length lp = length arr /\
      (forall k v, nth_error arr k = Some (Some v) -> forall y, snd v = Some y -> nth_error lp k = Some y)).
  { assert (V' : forall k, (k < length arr)%nat -> exists x y, nth_error arr k = Some (Some (x, Some y))) by (rewrite AL; exact V).
    clear - V'. induction arr as [|a arr IH]; simpl.
    - exists []. repeat split; auto. { intros [|k]; discriminate. } exists []. repeat split; auto. intros [|k]; discriminate.
    - destruct (V' O) as (x & y & E); [simpl; lia|]. simpl in E. injection E as ->.
      destruct IH as (vals & E1 & L1 & N1 & lp & E2 & L2 & N2).
      { intros k K. destruct (V' (S k)) as (x' & y' & E'); [simpl; lia|]. eauto. }
      simpl. rewrite E1. cbn [bind]. exists ((x, Some y) :: vals). repeat split; [simpl; lia| |].
      { intros [|k] v E; simpl in *; [injection E as <-; reflexivity|auto]. }
      simpl. rewrite E2. cbn [bind]. exists (y :: lp). repeat split; [simpl; lia|].
      intros [|k] v E z Z; simpl in *; [injection E as <-; simpl in Z; injection Z as ->; reflexivity|eauto]. }
  destruct VV as (vals & E3 & L3 & N3 & lp & E4 & L4 & N4).
  rewrite E3. cbn [bind]. rewrite E4. cbn [bind].
  assert (IP : (0 < length info)%nat) by (pose proof (wf_info _ _ W); destruct info; [congruence|simpl; lia]).
  assert (LN : lp <> []) by (intros ->; simpl in L4; lia).
  rewrite logsumexp_ok by exact LN. cbn [bind].
  set (logp := lsub (ln (sumR exp lp)) lp).
  assert (PL : length logp = length info) by (unfold logp, lsub; rewrite map_length; lia).
  assert (ML : map (fun s => si_logl s / T) cl = map (fun s => si_logl s / T) info) by apply map_clamp_logl.
  rewrite ML. set (logl := map (fun s => si_logl s / T) info).
  assert (LL : length logl = length info) by (apply map_length).
  set (logP0 := map (fun x => fst x + snd x) (combine logp logl)).
  assert (P0 : length logP0 = length info) by (unfold logP0; rewrite map_length, combine_length; lia).
  rewrite logsumexp_ok by (intros E; rewrite E in P0; simpl in P0; lia). cbn [bind].
  set (logz := ln (sumR exp logP0)). set (logP := lsub logz logP0).
  assert (P1 : length logP = length info) by (unfold logP, lsub; rewrite map_length; lia).
  assert (EP : exists p0, get logP 0 = Ok p0 /\ In p0 logP).
  { clearbody logP. destruct logP as [|p0 r]; [simpl in P1; lia|]. exists p0. split; [reflexivity|left; reflexivity]. }
  destruct EP as (p0 & EP & IP0). rewrite EP. cbn [bind].
  eexists. exists sw, lp. split; [reflexivity|]. constructor; cbn [po_logx po_logp po_logP po_logl po_logz po_H po_ESS po_num_ps po_rel]; auto.
  - lia.
  - rewrite map_length. lia.
  - intros i l EL j m NM. specialize (AE i l EL j m NM).
    split.
    + apply N3 in AE. erewrite map_nth_error by exact AE. reflexivity.
    + eapply N4; [exact AE|]. reflexivity.
  - apply fold_sum with (f := fun x : R * R => exp (fst x) * snd x).
  - rewrite (fold_sum _ (fun p => - p * exp p)). rewrite Rplus_0_l. reflexivity.
  - eexists. split; [|split; [|reflexivity]].
    + rewrite fold_maxr. destruct (fold_max_in logP p0) as [E|I]; [|exact I]. rewrite E. exact IP0.
    + intros v I. rewrite fold_maxr. apply fold_max_ge. exact I.
Qed.
