(** Lemmas on the loops of ParamModel: layout, ranges, fixed parameters, copying,
    sorting. *)
From Coq Require Import Reals ZArith List Bool Arith Lia Lra Permutation Sorted.
From Verif Require Import CPrelude ListLemmas SemisepModel SemisepProofs CovProofs SortModel SortProofs LogXModel LogXProofs ParamModel ParamSpec.
Import ListNotations.
Open Scope nat_scope.

(** ** Loops *)
Lemma iters_mul n w : 0 < w -> iters (w * n) w = n.
Proof.
  intros Hw. unfold iters. replace (w * n + w - 1) with (n * w + (w - 1)) by nia.
  rewrite Nat.div_add_l by lia. rewrite Nat.div_small; lia.
Qed.
Lemma for_fold {St} lo n (body : nat -> St -> St) s : for_ lo n body s = fold_left (fun s i => body i s) (seq lo n) s.
Proof. reflexivity. Qed.
(** nested loops as one pass over a list *)
Lemma for_flat {St C} (g : St -> C -> St) (l : nat -> list C) lo n s :
  for_ lo n (fun i s => fold_left g (l i) s) s = fold_left g (flat_map l (seq lo n)) s.
Proof.
  unfold for_. revert s. generalize (seq lo n). intros q. induction q as [|a q IH]; intros s; [reflexivity|].
  cbn [fold_left flat_map]. rewrite fold_left_app. apply IH.
Qed.
Lemma for_body {St} lo n (f g : nat -> St -> St) s : (forall i s, lo <= i < lo + n -> f i s = g i s) -> for_ lo n f s = for_ lo n g s.
Proof.
  intros H. unfold for_. revert s. assert (G : forall i, In i (seq lo n) -> lo <= i < lo + n) by (intros i; apply in_seq).
  revert G. generalize (seq lo n). intros q. induction q as [|a q IH]; intros G s; [reflexivity|].
  cbn [fold_left]. rewrite H by (apply G; left; reflexivity). apply IH. intros i Hi. apply G. right. exact Hi.
Qed.
Lemma for_map {St C} (g : St -> C -> St) (c : nat -> C) lo n s :
  for_ lo n (fun i s => g s (c i)) s = fold_left g (map c (seq lo n)) s.
Proof. unfold for_. revert s. generalize (seq lo n). intros q. induction q as [|a q IH]; intros s; [reflexivity|]. cbn. apply IH. Qed.
Lemma ofor_ok {St} lo n (body : nat -> St -> outcome St) (f : nat -> St -> St) s :
  (forall i s, lo <= i < lo + n -> body i s = Ok (f i s)) -> ofor lo n body s = Ok (for_ lo n f s).
Proof.
  intros H. unfold ofor, for_. revert s. assert (G : forall i, In i (seq lo n) -> lo <= i < lo + n) by (intros i; apply in_seq).
  revert G. generalize (seq lo n). intros q. induction q as [|a q IH]; intros G s; [reflexivity|].
  cbn [foldM fold_left]. rewrite H by (apply G; left; reflexivity). cbn [bind]. apply IH. intros i Hi. apply G. right. exact Hi.
Qed.
Lemma flat_map_nth {C} (l : nat -> list C) w n i r d : (forall i, length (l i) = w) -> i < n -> r < w ->
  nth (i * w + r) (flat_map l (seq 0 n)) d = nth r (l i) d.
Proof.
  intros Hw. revert l Hw i. induction n as [|n IH]; intros l Hw i Hi Hr; [lia|].
  cbn [seq flat_map]. destruct i as [|i].
  - cbn [Nat.mul Nat.add]. rewrite app_nth1 by (rewrite Hw; lia). reflexivity.
  - rewrite app_nth2 by (rewrite Hw; nia). rewrite Hw. replace (S i * w + r - w) with (i * w + r) by nia.
    rewrite <- seq_shift, flat_map_concat_map, map_map, <- flat_map_concat_map.
    apply (IH (fun i => l (S i))); [intros; apply Hw|lia|exact Hr].
Qed.
Lemma flat_map_len {C} (l : nat -> list C) w n : (forall i, length (l i) = w) -> length (flat_map l (seq 0 n)) = n * w.
Proof.
  intros Hw. generalize (seq 0 n) as q, (seq_length n 0). intros q <-. induction q as [|a q IH]; [reflexivity|].
  cbn [flat_map length Nat.mul]. rewrite app_length, Hw, IH. lia.
Qed.

(** ** Sequences of writes *)
Definition pushes (L : list (R * R)) (x : nat * ranges) : nat * ranges := fold_left (fun x ab => push ab x) L x.
Lemma pushes_spec L : forall i r, fst (pushes L (i, r)) = i + length L /\
  (forall s, i <= s < i + length L -> lo (snd (pushes L (i, r))) s = fst (nth (s - i) L (0, 0)%R) /\ hi (snd (pushes L (i, r))) s = snd (nth (s - i) L (0, 0)%R)) /\
  (forall s, ~ (i <= s < i + length L) -> lo (snd (pushes L (i, r))) s = lo r s /\ hi (snd (pushes L (i, r))) s = hi r s).
Proof.
  induction L as [|ab L IH]; intros i r.
  - cbn. split; [lia|]. split; intros s Hs; [lia|split; reflexivity].
  - cbn [pushes fold_left push]. destruct (IH (S i) (Ranges (upd (lo r) i (fst ab)) (upd (hi r) i (snd ab)))) as (A & B & C).
    unfold pushes in *. rewrite A. cbn [length] in *. split; [lia|]. split; intros s Hs.
    + destruct (Nat.eq_dec s i) as [->|Hne].
      * destruct (C i ltac:(lia)) as [C1 C2]. rewrite C1, C2, Nat.sub_diag. cbn [lo hi nth]. rewrite !upd_same. split; reflexivity.
      * destruct (B s ltac:(lia)) as [B1 B2]. rewrite B1, B2. replace (s - i) with (S (s - S i)) by lia. cbn [nth]. split; reflexivity.
    + destruct (C s ltac:(lia)) as [C1 C2]. rewrite C1, C2. cbn [lo hi]. rewrite !upd_other by lia. split; reflexivity.
Qed.
Lemma pushes_app L1 L2 x : pushes L2 (pushes L1 x) = pushes (L1 ++ L2) x.
Proof. unfold pushes. rewrite fold_left_app. reflexivity. Qed.
Lemma for_pushes (l : nat -> list (R * R)) lo n x : for_ lo n (fun i x => pushes (l i) x) x = pushes (flat_map l (seq lo n)) x.
Proof. apply (for_flat (fun x ab => push ab x)). Qed.

Definition fixes (L : list (nat * R)) (f : fixed) : fixed := fold_left (fun f c => fix_at (fst c) (snd c) f) L f.
Lemma fixes_spec L : forall f s,
  (is_fixed (fixes L f) s = true <-> is_fixed f s = true \/ In s (map fst L)) /\
  (~ In s (map fst L) -> fix_val (fixes L f) s = fix_val f s) /\
  (forall v, In s (map fst L) -> (forall w, In (s, w) L -> w = v) -> fix_val (fixes L f) s = v).
Proof.
  induction L as [|[a w] L IH]; intros f s.
  - cbn. split; [tauto|]. split; [reflexivity|tauto].
  - cbn [fixes fold_left fst snd map In]. destruct (IH (fix_at a w f) s) as (A & B & C). unfold fixes in *.
    assert (Hf : is_fixed (fix_at a w f) s = true <-> a = s \/ is_fixed f s = true).
    { cbn. destruct (s =? a) eqn:E; [apply Nat.eqb_eq in E|apply Nat.eqb_neq in E]; intuition congruence. }
    split; [rewrite A, Hf; tauto|]. split.
    + intros Hn. rewrite B by tauto. cbn. apply upd_other. intros ->. apply Hn. left. reflexivity.
    + intros v Hin Hv. destruct (in_dec Nat.eq_dec s (map fst L)) as [Hi|Hi].
      * apply C; [exact Hi|]. intros w' Hw'. apply Hv. right. exact Hw'.
      * destruct Hin as [->|Hin]; [|contradiction]. rewrite B by exact Hi. cbn. rewrite upd_same. apply Hv. left. reflexivity.
Qed.
Lemma fixes_app L1 L2 f : fixes L2 (fixes L1 f) = fixes (L1 ++ L2) f.
Proof. unfold fixes. rewrite fold_left_app. reflexivity. Qed.
Lemma for_fixes (l : nat -> list (nat * R)) lo n f : for_ lo n (fun i f => fixes (l i) f) f = fixes (flat_map l (seq lo n)) f.
Proof. apply (for_flat (fun f c => fix_at (fst c) (snd c) f)). Qed.

(** copies: first the target, then the source *)
Definition copies (L : list (nat * nat)) (pm : arr) : arr := fold_left (fun pm c => upd pm (fst c) (pm (snd c))) L pm.
Lemma copies_spec L : forall pm, (forall c, In c L -> ~ In (snd c) (map fst L)) ->
  (forall s, ~ In s (map fst L) -> copies L pm s = pm s) /\
  (forall s b, In (s, b) L -> (forall b', In (s, b') L -> b' = b) -> copies L pm s = pm b).
Proof.
  induction L as [|[a b] L IH]; intros pm Hd.
  - cbn. split; [reflexivity|tauto].
  - cbn [copies fold_left fst snd map]. unfold copies in *.
    destruct (IH (upd pm a (pm b))) as [A B].
    { intros c Hc Hi. apply (Hd c); [right; exact Hc|right; exact Hi]. }
    split.
    + intros s Hs. rewrite A by (intros Hi; apply Hs; right; exact Hi). apply upd_other. intros ->. apply Hs. left. reflexivity.
    + intros s b0 Hin Hfun. destruct (in_dec Nat.eq_dec s (map fst L)) as [Hi|Hi].
      * apply in_map_iff in Hi. destruct Hi as ([s' b1] & E & Hi). cbn in E. subst s'.
        assert (b1 = b0) as -> by (apply Hfun; right; exact Hi).
        rewrite (B s b0 Hi) by (intros b' Hb'; apply Hfun; right; exact Hb').
        apply upd_other. intros <-. apply (Hd (s, b0)); [right; exact Hi|left; reflexivity].
      * rewrite A by exact Hi. destruct Hin as [E|Hin]; [|exfalso; apply Hi; apply in_map_iff; exists (s, b0); auto].
        injection E as -> ->. apply upd_same.
Qed.
Lemma for_copies (l : nat -> list (nat * nat)) lo n pm : for_ lo n (fun i pm => copies (l i) pm) pm = copies (flat_map l (seq lo n)) pm.
Proof. apply (for_flat (fun pm c => upd pm (fst c) (pm (snd c)))). Qed.

(** ** Layout *)
Section Layout.
Variable nset : nat.
Variable nlset : nat -> nat.
Variable ng : nat.
Variable uniform : nat.
Variable uniform_var : bool.
Notation nvar := (num_params_var nset uniform_var).
Notation per := (per_line ng).
Notation npl := (num_params_line nset nlset ng uniform).
Notation np := (num_params nset nlset ng uniform uniform_var).
Notation lmax := (nlset_max nset nlset).

Notation before := (before nlset).
Notation nlines := (nlines nset nlset uniform).
Notation line_no := (line_no nlset uniform).

Lemma nvar_3 : exists c, nvar = 3 * c /\ iters nvar 3 = c.
Proof.
  unfold num_params_var. destruct uniform_var; [exists 1|exists nset]; (split; [lia|]).
  - reflexivity.
  - apply iters_mul. lia.
Qed.
Lemma npl_lines : npl = per * nlines.
Proof.
  unfold num_params_line, ParamSpec.nlines. destruct (uniform =? 1); [reflexivity|].
  generalize nset as n. induction n as [|n IH]; [cbn; lia|]. rewrite for_snoc, IH. cbn [ParamSpec.before]. rewrite Nat.add_0_l. lia.
Qed.
Lemma lines_iters : iters npl per = nlines.
Proof. rewrite npl_lines. apply iters_mul. unfold per_line. lia. Qed.
Lemma lmax_ge n : (forall i, i < n -> nlset i <= nlset_max n nlset) /\ (0 < n -> exists i, i < n /\ nlset i = nlset_max n nlset) .
Proof.
  unfold nlset_max. induction n as [|n [IH1 IH2]]; [split; [lia|lia]|].
  rewrite for_snoc, Nat.add_0_l. set (x := for_ 0 n _ 0) in *. destruct (x <? nlset n) eqn:E.
  - apply Nat.ltb_lt in E. split.
    + intros i Hi. destruct (Nat.eq_dec i n) as [->|]; [lia|]. specialize (IH1 i). lia.
    + intros _. exists n. lia.
  - apply Nat.ltb_ge in E. split.
    + intros i Hi. destruct (Nat.eq_dec i n) as [->|]; [lia|]. apply IH1. lia.
    + intros _. destruct n as [|n]; [|destruct IH2 as (i & H & <-); [lia|]; exists i; lia].
      exists 0. split; [lia|]. cbn in x. subst x. lia.
Qed.
Lemma before_mono i i' : i <= i' -> before i <= before i'.
Proof. induction 1; cbn [ParamSpec.before]; lia. Qed.
Lemma before_inj i j i' j' : j < nlset i -> j' < nlset i' -> before i + j = before i' + j' -> i = i' /\ j = j'.
Proof.
  intros H H' E. destruct (lt_eq_lt_dec i i') as [[G|G]|G].
  - pose proof (before_mono (S i) i' G). cbn [ParamSpec.before] in *. lia.
  - subst. split; [reflexivity|lia].
  - pose proof (before_mono (S i') i G). cbn [ParamSpec.before] in *. lia.
Qed.
Lemma before_cover n m : m < before n -> exists i j, i < n /\ j < nlset i /\ m = before i + j.
Proof.
  induction n as [|n IH]; cbn [ParamSpec.before]; intros H; [lia|].
  destruct (lt_dec m (before n)) as [G|G].
  - destruct (IH G) as (i & j & A & B & C). exists i, j. repeat split; auto.
  - exists n, (m - before n). repeat split; lia.
Qed.
Lemma line_no_lt i j : i < nset -> j < nlset i -> line_no i j < nlines.
Proof.
  intros Hi Hj. unfold ParamSpec.line_no, ParamSpec.nlines. destruct (uniform =? 1).
  - pose proof (proj1 (lmax_ge nset) i Hi). lia.
  - pose proof (before_mono (S i) nset Hi). cbn [ParamSpec.before] in *. lia.
Qed.
Lemma line_no_cover m : m < nlines -> exists i j, i < nset /\ j < nlset i /\ m = line_no i j.
Proof.
  unfold ParamSpec.line_no, ParamSpec.nlines. destruct (uniform =? 1).
  - intros H. destruct (Nat.eq_dec nset 0) as [E|E]; [rewrite E in H; cbn in H; lia|].
    destruct (proj2 (lmax_ge nset) ltac:(lia)) as (i & A & B). exists i, m. rewrite B. auto.
  - apply before_cover.
Qed.

(** ** The index table *)
Lemma idx_rows (f : nat -> nat -> nat) n m : forall i j,
  for_ 0 n (fun i m => for_ 0 (nlset i) (fun j m => put2 m i j (f i j)) m) m i j
  = if (i <? n) && (j <? nlset i) then Some (f i j) else m i j.
Proof.
  assert (row : forall i k m a b, for_ 0 k (fun j m => put2 m i j (f i j)) m a b = if (a =? i) && (b <? k) then Some (f i b) else m a b).
  { intros i k m0 a b. induction k as [|k IH].
    - cbn. destruct (a =? i); reflexivity.
    - rewrite for_snoc, Nat.add_0_l. unfold put2 at 1. rewrite IH.
      destruct (Nat.eqb_spec a i) as [->|]; cbn [andb]; [|reflexivity].
      destruct (Nat.eqb_spec b k) as [->|Hb].
      + replace (k <? S k) with true by (symmetry; apply Nat.ltb_lt; lia). reflexivity.
      + replace (b <? S k) with (b <? k); [reflexivity|].
        destruct (Nat.ltb_spec b k), (Nat.ltb_spec b (S k)); try reflexivity; lia. }
  induction n as [|n IH]; intros i j; [reflexivity|].
  rewrite for_snoc, Nat.add_0_l, row, IH.
  destruct (Nat.eqb_spec i n) as [->|Hi].
  - replace (n <? S n) with true by (symmetry; apply Nat.ltb_lt; lia). cbn [andb]. destruct (j <? nlset n); [reflexivity|].
    replace (n <? n) with false by (symmetry; apply Nat.ltb_ge; lia). reflexivity.
  - cbn [andb]. replace (i <? S n) with (i <? n); [reflexivity|].
    destruct (Nat.ltb_spec i n), (Nat.ltb_spec i (S n)); try reflexivity; lia.
Qed.
Lemma idx_spec m i j : set_idx_line_pm nset nlset ng uniform uniform_var m i j
  = if (i <? nset) && (j <? nlset i) then Some (per * line_no i j + nvar) else m i j.
Proof.
  unfold set_idx_line_pm, ParamSpec.line_no. destruct (uniform =? 1) eqn:U.
  - apply (idx_rows (fun i j => per * j + nvar)).
  - assert (G : forall n, for_ 0 n (fun i x => for_ 0 (nlset i) (fun j x => let '(k, m) := x in (S k, put2 m i j (per * k + nvar))) x) (0, m)
      = (before n, for_ 0 n (fun i m => for_ 0 (nlset i) (fun j m => put2 m i j (per * (before i + j) + nvar)) m) m)).
    { induction n as [|n IH]; [reflexivity|]. rewrite !for_snoc, IH, Nat.add_0_l. cbn [ParamSpec.before].
      set (m1 := for_ 0 n (fun i m => _) m). clearbody m1. clear IH.
      generalize (nlset n). intros k. induction k as [|k IH].
      - cbn. rewrite Nat.add_0_r. reflexivity.
      - rewrite !for_snoc, IH. cbn [Nat.add]. f_equal. lia. }
    rewrite (G nset). cbn [snd]. apply (idx_rows (fun i j => per * (before i + j) + nvar)).
Qed.

(** ** Ranges *)
Definition line_list (sys : R * R) (amp lag width : nat -> R * R) : list (R * R) :=
  sys :: flat_map (fun k => [amp k; lag k; width k]) (seq 0 ng).
Lemma line_list_len sys amp lag width : length (line_list sys amp lag width) = per.
Proof. cbn [line_list length]. rewrite (flat_map_len _ 3) by reflexivity. unfold per_line. lia. Qed.
Lemma line_list_nth sys amp lag width d : nth 0 (line_list sys amp lag width) d = sys /\
  forall k, k < ng -> nth (1 + 3 * k) (line_list sys amp lag width) d = amp k /\
    nth (2 + 3 * k) (line_list sys amp lag width) d = lag k /\ nth (3 + 3 * k) (line_list sys amp lag width) d = width k.
Proof.
  split; [reflexivity|]. intros k Hk. unfold line_list.
  replace (1 + 3 * k) with (S (k * 3 + 0)) by lia. replace (2 + 3 * k) with (S (k * 3 + 1)) by lia. replace (3 + 3 * k) with (S (k * 3 + 2)) by lia.
  cbn [nth]. rewrite !(flat_map_nth _ 3 ng k) by (try reflexivity; lia). cbn. auto.
Qed.
Lemma set_ranges_list var sys amp lag width r :
  set_ranges nset nlset ng uniform uniform_var var sys amp lag width r
  = snd (pushes (flat_map (fun m => [var (m * 3) 0; var (m * 3) 1; var (m * 3) 2]) (seq 0 (iters nvar 3))
      ++ flat_map (fun m => line_list sys (amp m) lag width) (seq 0 nlines)) (0, r)).
Proof.
  unfold set_ranges. cbv zeta. rewrite lines_iters. rewrite <- pushes_app. f_equal.
  rewrite <- (for_pushes (fun m => [var (m * 3) 0; var (m * 3) 1; var (m * 3) 2])), <- for_pushes.
  cbn [pushes fold_left]. apply for_body. intros m x _. unfold line_list, pushes. cbn [fold_left].
  rewrite <- (for_flat (fun x ab => push ab x)). reflexivity.
Qed.
Lemma set_ranges_spec var sys amp lag width r (g := set_ranges nset nlset ng uniform uniform_var var sys amp lag width r) :
  (forall m c, 3 * m + c < nvar -> c < 3 -> (lo g (3 * m + c), hi g (3 * m + c)) = var (3 * m) c) /\
  (forall m, m < nlines -> (lo g (nvar + m * per), hi g (nvar + m * per)) = sys /\
     forall k, k < ng -> (lo g (nvar + m * per + (1 + 3 * k)), hi g (nvar + m * per + (1 + 3 * k))) = amp m k /\
       (lo g (nvar + m * per + (2 + 3 * k)), hi g (nvar + m * per + (2 + 3 * k))) = lag k /\
       (lo g (nvar + m * per + (3 + 3 * k)), hi g (nvar + m * per + (3 + 3 * k))) = width k).
Proof.
  subst g. rewrite set_ranges_list. destruct nvar_3 as (c0 & Hn & Hi). rewrite Hi.
  set (L1 := flat_map (fun m => [var (m * 3) 0; var (m * 3) 1; var (m * 3) 2]) (seq 0 c0)).
  assert (E1 : length L1 = nvar) by (unfold L1; rewrite (flat_map_len _ 3) by reflexivity; lia).
  set (L2 := flat_map _ (seq 0 nlines)).
  assert (E2 : length L2 = nlines * per) by (unfold L2; rewrite (flat_map_len _ per) by (intros; apply line_list_len); lia).
  destruct (pushes_spec (L1 ++ L2) 0 r) as (_ & B & _). rewrite app_length, E1, E2 in B. cbn [Nat.add] in B.
  assert (pair_eta : forall x : R * R, (fst x, snd x) = x) by (intros []; reflexivity).
  split.
  - intros m c Hmc Hc. destruct (B (3 * m + c)) as [B1 B2]; [lia|]. rewrite B1, B2, Nat.sub_0_r, app_nth1 by lia. rewrite pair_eta.
    unfold L1. replace (3 * m + c) with (m * 3 + c) by lia. rewrite (flat_map_nth _ 3 c0 m) by (try reflexivity; lia).
    rewrite (Nat.mul_comm 3 m). destruct c as [|[|[|c]]]; [reflexivity..|lia].
  - intros m Hm.
    assert (at_ : forall o, o < per -> (lo (snd (pushes (L1 ++ L2) (0, r))) (nvar + m * per + o), hi (snd (pushes (L1 ++ L2) (0, r))) (nvar + m * per + o))
        = nth o (line_list sys (amp m) lag width) (0%R, 0%R)).
    { intros o Ho. destruct (B (nvar + m * per + o)) as [B1 B2]; [nia|]. rewrite B1, B2, Nat.sub_0_r, app_nth2 by lia. rewrite pair_eta, E1.
      replace (nvar + m * per + o - nvar) with (m * per + o) by lia. unfold L2.
      rewrite (flat_map_nth _ per nlines m) by (first [intros; apply line_list_len|lia]). reflexivity. }
    destruct (line_list_nth sys (amp m) lag width (0%R, 0%R)) as [N0 Nk].
    split; [rewrite <- (Nat.add_0_r (nvar + m * per)), at_ by (unfold per_line; lia); exact N0|].
    intros k Hk. destruct (Nk k Hk) as (N1 & N2 & N3). rewrite !at_ by (unfold per_line; lia). auto.
Qed.
End Layout.
