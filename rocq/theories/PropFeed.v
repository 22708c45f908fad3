(** C104: what the likelihoods are given, and that it does not depend on the units of the
    fluxes. *)
From Coq Require Import Reals List Arith Bool Lia Lra.
From Verif Require Import CPrelude SemisepModel RecModel RecProofs PropRec PropNorm SetsModel FeedModel PropUnit.
From Verif Require PropPart EndProofs.
Import ListNotations.
Open Scope R_scope.

(** ** What the statements are about *)
(** curve c of a set as read: 0 is the continuum *)
Definition raw_points (r : rawset) (c : nat) : curve := match c with O => r_con r | S j => snd (nth j (r_lines r) ([], [])) end.
Definition raw_times (r : rawset) (c : nat) : list R := match c with O => r_tcon r | S j => fst (nth j (r_lines r) ([], [])) end.
(** every point has a time; in the virtual mode there is no continuum *)
Definition whole (vmap : bool) (r : rawset) : Prop :=
  (forall c, length (raw_times r c) = length (raw_points r c)) /\ (vmap = true -> r_con r = []).
(** where point k of curve c is in the combined light curve *)
Definition place_of (r : rawset) (c k : nat) : nat := (PropPart.total (fun c => length (raw_points r c)) c + k)%nat.
(** The set p holds the curves of r, every one divided by a positive factor: times,
    fluxes, errors, mean errors; and the combined light curve holds nothing else. *)
Definition holds (r : rawset) (p : prepared) : Prop :=
  s_nl (p_set p) = length (r_lines r) /\
  (forall c, (c < 1 + length (r_lines r))%nat -> let n := length (raw_points r c) in
     curve_size (p_set p) c = n /\
     exists s, nth_error (p_scale p) c = Some s /\ 0 < s /\
       curve_mean (p_set p) c * s * INR n = Rsum (map snd (raw_points r c)) /\ (n = 0%nat -> s = 1 /\ curve_mean (p_set p) c = 0) /\
       forall k t f e, nth_error (raw_times r c) k = Some t -> nth_error (raw_points r c) k = Some (f, e) ->
         curve_time (p_set p) c k = t /\ curve_error (p_set p) c k = e / s /\ s_fall (p_set p) (place_of r c k) = f / s /\
         nth_error (p_t p) (place_of r c k) = Some (Some t) /\ nth_error (p_f p) (place_of r c k) = Some (Some (f / s)) /\ nth_error (p_fe p) (place_of r c k) = Some (Some (e / s))) /\
  let n := place_of r (1 + length (r_lines r)) 0 in length (p_t p) = n /\ length (p_f p) = n /\ length (p_fe p) = n.
(** the curves looked at: as in C47 *)
Definition curves (sets : list rawset) : list (curve * list curve) := map (fun r => (r_con r, map snd (r_lines r))) sets.
(** hi and lo are the largest and the smallest stored flux of curve c *)
Definition stored_ends (r : rawset) (p : prepared) (c : nat) (hi lo : R) : Prop :=
  let n := length (raw_points r c) in let f k := s_fall (p_set p) (place_of r c k) in
  (exists k, (k < n)%nat /\ f k = hi) /\ (exists k, (k < n)%nat /\ f k = lo) /\ forall k, (k < n)%nat -> lo <= f k <= hi.
(** the same curves in other units of flux, each curve in its own *)
Definition reunit (c c' : curve) : Prop := exists b, 0 < b /\ c' = map (fun p => (b * fst p, b * snd p)) c.
Definition reunit_set (r r' : rawset) : Prop :=
  r_tcon r' = r_tcon r /\ reunit (r_con r) (r_con r') /\ Forall2 (fun l l' => fst l' = fst l /\ reunit (snd l) (snd l')) (r_lines r) (r_lines r').
(** two outcomes of the same kind *)
Definition alike {A} (P : A -> A -> Prop) (x y : outcome A) : Prop :=
  match x, y with Ok a, Ok b => P a b | Exit, Exit => True | UB, UB => True | Stuck, Stuck => True | _, _ => False end.

(** ** Links to the proofs *)
Lemma put_app {A} : forall (pre : list A) h post x, put (pre ++ h :: post) (length pre) x = Ok (pre ++ x :: post).
Proof.
  intros pre h post x. unfold put. assert (E : set_nth (length pre) x (pre ++ h :: post) = Some (pre ++ x :: post)).
  { induction pre as [|y pre IH]; cbn; [reflexivity|]. rewrite IH. reflexivity. }
  rewrite E. reflexivity.
Qed.
Lemma memcpy_steps : forall (s2 s1 : list R) (pre hole post : list (option R)) off, length hole = length s2 -> length pre = (off + length s1)%nat ->
  foldM (fun d k => x <- get (s1 ++ s2) k ;; put d (off + k) (Some x)) (seq (length s1) (length s2)) (pre ++ hole ++ post) = Ok (pre ++ map Some s2 ++ post).
Proof.
  induction s2 as [|x s2 IH]; intros s1 pre hole post off H P.
  - destruct hole; [reflexivity|discriminate].
  - destruct hole as [|h hole]; [discriminate|]. cbn [length seq foldM]. unfold get at 1. rewrite nth_error_app2, Nat.sub_diag by lia. cbn [nth_error bind].
    rewrite <- P. cbn [app]. rewrite put_app. cbn [bind].
    specialize (IH (s1 ++ [x]) (pre ++ [Some x]) hole post off). rewrite !app_length in IH. cbn [length] in IH. rewrite <- !app_assoc in IH. cbn [app] in IH.
    replace (length s1 + 1)%nat with (S (length s1)) in IH by lia. rewrite IH; [reflexivity| |]; cbn in H; lia.
Qed.
Lemma memcpy_ok s pre hole post : length hole = length s -> memcpy (pre ++ hole ++ post) (length pre) s (length s) = Ok (pre ++ map Some s ++ post).
Proof. intros H. apply (memcpy_steps s [] pre hole post (length pre)); [exact H|cbn; lia]. Qed.
Lemma size_acc : forall (lines : list (list R)) n, fold_left (fun n l => (n + length l)%nat) lines n = (n + length (concat lines))%nat.
Proof. induction lines as [|l lines IH]; intros n; cbn; [lia|]. rewrite IH, app_length. lia. Qed.
Lemma combine_ok con lines : combine con lines = Ok (map Some (con ++ concat lines)).
Proof.
  unfold combine. rewrite size_acc, repeat_app.
  assert (M := memcpy_ok con [] (repeat None (length con)) (repeat None (length (concat lines))) (repeat_length _ _)). cbn [app length] in M. rewrite M. cbn [bind].
  assert (G : forall lines pre, foldM (fun x l => let '(a, np) := x in a <- memcpy a np l (length l) ;; Ok (a, (np + length l)%nat)) lines
      (pre ++ repeat None (length (concat lines)), length pre) = Ok (pre ++ map Some (concat lines), (length pre + length (concat lines))%nat)).
  { clear. induction lines as [|l lines IH]; intros pre; cbn [concat length repeat foldM]; [cbn; rewrite Nat.add_0_r; reflexivity|].
    rewrite app_length, repeat_app. rewrite memcpy_ok by apply repeat_length. cbn [bind].
    specialize (IH (pre ++ map Some l)). rewrite app_length, map_length, <- !app_assoc in IH. rewrite IH, map_app. do 2 f_equal. lia. }
  specialize (G lines (map Some con)). rewrite map_length in G. rewrite G. cbn [bind fst]. rewrite map_app. reflexivity.
Qed.
Lemma nth_concat {A} : forall (ls : list (list A)) (size : nat -> nat) c k, (forall d, (d < length ls)%nat -> size d = length (nth d ls [])) -> (c < length ls)%nat -> (k < length (nth c ls []))%nat ->
  nth_error (concat ls) (PropPart.total size c + k) = nth_error (nth c ls []) k.
Proof.
  induction ls as [|l ls IH]; intros size c k HS C K; [cbn in C; lia|]. destruct c as [|c]; cbn [concat nth] in *.
  - cbn. apply nth_error_app1, K.
  - assert (T : PropPart.total size (S c) = (length l + PropPart.total (fun d => size (S d)) c)%nat).
    { clear -HS C. assert (G : forall m, (m < length (l :: ls))%nat -> PropPart.total size (S m) = (length l + PropPart.total (fun d => size (S d)) m)%nat).
      { induction m as [|m IH]; intros M; [cbn; rewrite (HS 0%nat M); cbn; lia|]. cbn [PropPart.total] in *. rewrite IH by lia. lia. }
      apply G. exact (Nat.lt_trans _ _ _ (Nat.lt_succ_diag_r c) C). }
    rewrite T, nth_error_app2 by lia. replace (length l + PropPart.total (fun d => size (S d)) c + k - length l)%nat with (PropPart.total (fun d => size (S d)) c + k)%nat by lia.
    apply IH; [|cbn in C; lia|exact K]. intros d D. apply (HS (S d)). cbn. lia.
Qed.
Lemma total_concat {A} : forall (ls : list (list A)) (size : nat -> nat), (forall d, (d < length ls)%nat -> size d = length (nth d ls [])) -> PropPart.total size (length ls) = length (concat ls).
Proof.
  induction ls as [|l ls IH] using rev_ind; intros size HS; [reflexivity|]. rewrite app_length, Nat.add_1_r. cbn [PropPart.total]. rewrite concat_app, app_length. cbn [concat]. rewrite app_nil_r.
  rewrite IH; [|intros d D; rewrite HS, app_nth1; [reflexivity|exact D|rewrite app_length; cbn; lia]].
  f_equal. rewrite HS, app_nth2, Nat.sub_diag by (try rewrite app_length; cbn; lia). reflexivity.
Qed.
(** what becomes of the curves *)
Definition line_done (uniform flag : bool) (l : curve) (n : ncurve) : Prop := match l with [] => n = NCurve 1 [] None | _ => scale_curve uniform flag l = Ok n end.
Definition con_done (vmap uniform flag : bool) (l : curve) (n : ncurve) : Prop := if vmap then n = NCurve 1 l None else scale_curve uniform flag l = Ok n.
Definition set_done (vmap uniform flag : bool) (s : curve * list curve) (ns : list ncurve) : Prop :=
  exists n0 nl, ns = n0 :: nl /\ con_done vmap uniform flag (fst s) n0 /\ Forall2 (line_done uniform flag) (snd s) nl.
Lemma lines_done uniform flag : forall ls i j v cs rows v', scale_lines uniform flag i j ls v = Ok (cs, rows, v') -> Forall2 (line_done uniform flag) ls cs.
Proof.
  induction ls as [|l ls IH]; intros i j v cs rows v' E; cbn [scale_lines] in E; [injection E as <- <- <-; constructor|].
  destruct l as [|p l].
  - apply bind_ok in E. destruct E as ([[cs' rows'] v''] & E & E'). injection E' as <- <- <-. constructor; [reflexivity|]. eapply IH, E.
  - apply bind_ok in E. destruct E as (c & EC & E). apply bind_ok in E. destruct E as ([[cs' rows'] v''] & E & E'). injection E' as <- <- <-.
    constructor; [exact EC|]. eapply IH, E.
Qed.
Lemma sets_done vmap uniform flag : forall sets i v out rows, second_pass vmap uniform flag i sets v = Ok (out, rows) -> Forall2 (set_done vmap uniform flag) sets out.
Proof.
  induction sets as [|[con ls] sets IH]; intros i v out rows E; cbn [second_pass] in E; [injection E as <- <-; constructor|].
  apply bind_ok in E. destruct E as ([n0 v0] & E0 & E). apply bind_ok in E. destruct E as ([[nl r1] v1] & E1 & E). apply bind_ok in E. destruct E as ([out' r2] & E2 & E). injection E as <- <-.
  constructor; [|eapply IH, E2]. exists n0, nl. split; [reflexivity|]. split; [|eapply lines_done, E1]. cbn [fst]. unfold con_done.
  destruct vmap; [injection E0 as <- <-; reflexivity|]. apply bind_ok in E0. destruct E0 as (c & EC & E0). injection E0 as <- <-. exact EC.
Qed.
(** one curve *)
Lemma stats_pos c a h mn mx flag flag' : curve_stats c = Ok (a, h, mn, mx) -> check_curve c flag = Ok flag' -> 0 < a /\ 0 < h.
Proof.
  intros E C. destruct (half_range_stats _ _ _ _ _ E) as (_ & _ & H). apply half_range_ge0 in H. unfold check_curve in C. rewrite E in C. cbn [bind] in C.
  destruct (Rle_dec a 0); [discriminate|]. destruct (Req_EM_T h 0); [discriminate|]. lra.
Qed.
Definition over (s : R) (p : R * R) : R * R := (fst p / s, snd p / s).
Definition divided (l : curve) (n : ncurve) : Prop := 0 < nscale_ n /\ npts n = map (over (nscale_ n)) l /\ (l = [] -> nscale_ n = 1).
Lemma curve_divided uniform flag l n : acceptable l -> scale_curve uniform flag l = Ok n -> divided l n.
Proof.
  intros (N & A & H) E. destruct (curve_stats_ok l N) as (mn & mx & L & S & ES). unfold scale_curve in E. rewrite ES in E. cbn [bind] in E. injection E as <-.
  assert (HR : half_range l ((mx - mn) / 2)) by (exists mx, mn; auto). assert (P := half_range_ge0 _ _ HR).
  assert (NZ : (mx - mn) / 2 <> 0) by (intros Z; apply H; rewrite <- Z; exact HR). unfold divided. cbn [nscale_ npts].
  split; [destruct uniform; [lra|]; destruct flag; lra|]. split; [reflexivity|contradiction].
Qed.
Lemma line_divided uniform flag l n : (l <> [] -> acceptable l) -> line_done uniform flag l n -> divided l n.
Proof.
  intros A D. destruct l as [|p l]; cbn [line_done] in D.
  - subst n. split; [cbn; lra|]. split; reflexivity.
  - eapply curve_divided; [apply A; discriminate|exact D].
Qed.
Lemma Forall2_nth_of {A B} (P : A -> B -> Prop) d d' : forall l l', Forall2 P l l' -> forall j, (j < length l)%nat -> P (nth j l d) (nth j l' d').
Proof. induction 1 as [|x y l l' H F IH]; intros j J; [cbn in J; lia|]. destruct j; cbn in *; [exact H|apply IH; lia]. Qed.
Lemma f2_len {A B} (P : A -> B -> Prop) l l' : Forall2 P l l' -> length l = length l'.
Proof. induction 1; cbn; lia. Qed.
Lemma set_divided vmap uniform flag r ns : whole vmap r -> (forall c, measured vmap [(r_con r, map snd (r_lines r))] c -> acceptable c) ->
  set_done vmap uniform flag (r_con r, map snd (r_lines r)) ns ->
  length ns = (1 + length (r_lines r))%nat /\ forall c, (c < 1 + length (r_lines r))%nat -> divided (raw_points r c) (nth c ns no_curve).
Proof.
  intros [W V] AC (n0 & nl & -> & C0 & FL). cbn [fst snd] in *.
  assert (LN : length nl = length (r_lines r)) by (rewrite <- (f2_len _ _ _ FL), map_length; reflexivity).
  split; [cbn; lia|]. intros [|j] C; cbn [nth raw_points].
  - unfold con_done in C0. destruct vmap.
    + subst n0. rewrite (V eq_refl). split; [cbn; lra|]. split; reflexivity.
    + eapply curve_divided; [|exact C0]. apply AC. exists (r_con r), (map snd (r_lines r)). split; [left; reflexivity|left; auto].
  - assert (J : (j < length (map snd (r_lines r)))%nat) by (rewrite map_length; lia).
    assert (D := Forall2_nth_of _ [] no_curve _ _ FL j J). change (@nil (R * R)) with (snd (@nil R, @nil (R * R))) in D at 1. rewrite map_nth in D.
    eapply line_divided; [|exact D]. intros N. apply AC. exists (r_con r), (map snd (r_lines r)). split; [left; reflexivity|]. right. split; [|exact N].
    apply in_map, nth_In. lia.
Qed.
Lemma mean_over s l : 0 < s -> line_mean (map (over s) l) * s * INR (length l) = Rsum (map snd l).
Proof.
  intros S. assert (G : forall c m, fold_left (fun m (p : R * R) => m + snd p) c m = m + Rsum (map snd c)).
  { induction c as [|p c IH]; intros m; cbn [fold_left map]; [cbn; ring|]. rewrite IH. cbn [Rsum fold_right]. unfold Rsum. cbn [fold_right]. ring. }
  destruct l as [|p l]; [cbn; unfold Rsum; cbn; ring|]. unfold line_mean. cbn [map]. unfold mean_error. rewrite G.
  assert (Q : forall c, Rsum (map snd (map (over s) c)) = Rsum (map snd c) / s).
  { induction c as [|q c IH]; unfold Rsum in *; cbn [map fold_right]; [field; lra|]. rewrite IH. cbn [over snd]. field. lra. }
  change (over s p :: map (over s) l) with (map (over s) (p :: l)). rewrite Q, map_length.
  assert (IN : INR (length (p :: l)) <> 0) by (apply not_0_INR; discriminate). set (N := INR (length (p :: l))) in *. change (snd p :: map snd l) with (map snd (p :: l)). set (X := Rsum (map snd (p :: l))). field. lra.
Qed.
Lemma prepare_set_eq vmap r ns p : prepare_set vmap r ns = Ok p -> exists n0 nl, ns = n0 :: nl /\
  (if vmap then s_em (p_set p) = 0 else npts n0 <> [] /\ s_em (p_set p) = mean_error (npts n0)) /\
  p = Prepared (LcSet (length (npts n0)) (rd (r_tcon r)) (rd (map snd (npts n0))) (s_em (p_set p))
            (length nl) (fun j => length (npts (nth j nl no_curve))) (fun j => rd (nth j (map fst (r_lines r)) [])) (fun j => rd (map snd (npts (nth j nl no_curve))))
            (fun j => line_mean (npts (nth j nl no_curve))) (val (map Some (concat (map (fun n => map fst (npts n)) ns)))))
           (map nscale_ ns) (map nminmax ns) (map Some (concat (r_tcon r :: map fst (r_lines r)))) (map Some (concat (map (fun n => map fst (npts n)) ns)))
           (map Some (concat (map (fun n => map snd (npts n)) ns))).
Proof.
  intros E. destruct ns as [|n0 nl]; [discriminate|]. exists n0, nl. split; [reflexivity|]. cbn [prepare_set] in E. apply bind_ok in E. destruct E as (em & EM & E).
  rewrite !combine_ok in E. cbn [bind] in E. injection E as <-. cbn [p_set s_em]. split; [|reflexivity].
  unfold con_mean in EM. destruct vmap; [injection EM as <-; reflexivity|]. destruct (npts n0); [discriminate|]. injection EM as <-. split; [discriminate|reflexivity].
Qed.
Lemma set_holds vmap r ns p : whole vmap r -> length ns = (1 + length (r_lines r))%nat -> (forall c, (c < 1 + length (r_lines r))%nat -> divided (raw_points r c) (nth c ns no_curve)) ->
  prepare_set vmap r ns = Ok p -> holds r p.
Proof.
  intros W LN DV E. destruct (prepare_set_eq _ _ _ _ E) as (n0 & nl & NS & EM & EP). set (em := s_em (p_set p)) in *. 
  assert (LL : length nl = length (r_lines r)) by (subst ns; cbn in LN; lia).
  assert (Lf : forall c, (c < 1 + length (r_lines r))%nat -> length (npts (nth c ns no_curve)) = length (raw_points r c)) by (intros c C; destruct (DV c C) as (_ & -> & _); apply map_length).
  set (size := fun c => length (raw_points r c)).
  assert (G : forall (g : R * R -> R), (forall d, (d < length (map (fun n => map g (npts n)) ns))%nat -> size d = length (nth d (map (fun n => map g (npts n)) ns) []))).
  { intros g d D. rewrite map_length in D. change (@nil R) with ((fun n => map g (npts n)) no_curve). rewrite map_nth, map_length. symmetry. apply Lf. lia. }
  assert (GT : forall d, (d < length (r_tcon r :: map fst (r_lines r)))%nat -> size d = length (nth d (r_tcon r :: map fst (r_lines r)) [])).
  { intros d D. unfold size. rewrite <- (proj1 W d). destruct d as [|d]; [reflexivity|]. cbn [nth raw_times]. change (@nil R) with (fst (@nil R, @nil (R * R))) at 2. rewrite map_nth. reflexivity. }
  rewrite EP. split; [exact LL|]. split.
  - intros c C n. destruct (DV c C) as (SP & ND & S1). set (m := nth c ns no_curve) in *.
    assert (SZ : curve_size (p_set p) c = n) by (rewrite EP; unfold n; rewrite <- (Lf c C); unfold m; rewrite NS; destruct c; reflexivity).
    rewrite <- EP. split; [exact SZ|]. exists (nscale_ m).
    assert (MM : curve_mean (p_set p) c = line_mean (npts m)).
    { destruct c as [|j]; [|rewrite EP; unfold m; rewrite NS; reflexivity]. change (curve_mean (p_set p) 0) with em. unfold m. rewrite NS. cbn [nth].
      destruct vmap; [|destruct EM as [N0 ->]; destruct (npts n0); [contradiction|reflexivity]].
      destruct (DV 0%nat C) as (_ & D0 & _). rewrite NS in D0. cbn [nth raw_points] in D0. rewrite (proj2 W eq_refl) in D0. cbn in D0. rewrite D0. exact EM. }
    split; [rewrite EP; cbn [p_scale]; rewrite nth_error_map, (nth_error_nth' ns no_curve) by lia; reflexivity|]. split; [exact SP|].
    split; [rewrite MM, ND; apply mean_over, SP|]. split.
    { intros Z. apply length_zero_iff_nil in Z. split; [apply S1, Z|]. rewrite MM, ND, Z. reflexivity. }
    intros k t f e KT KP. assert (K : (k < n)%nat) by (apply nth_error_Some; rewrite KP; discriminate).
    assert (XF : forall g : R * R -> R, nth_error (concat (map (fun n => map g (npts n)) ns)) (place_of r c k) = Some (g (over (nscale_ m) (f, e)))).
    { intros g. unfold place_of. fold size. rewrite (nth_concat _ _ c k (G g)).
      - change (@nil R) with ((fun n => map g (npts n)) no_curve). rewrite map_nth. fold m. rewrite ND, !nth_error_map, KP. reflexivity.
      - rewrite map_length. lia.
      - rewrite <- (G g) by (rewrite map_length; lia). exact K. }
    assert (XT : nth_error (concat (r_tcon r :: map fst (r_lines r))) (place_of r c k) = Some t).
    { assert (Q : nth c (r_tcon r :: map fst (r_lines r)) [] = raw_times r c).
      { destruct c as [|j]; [reflexivity|]. cbn [nth raw_times]. change (@nil R) with (fst (@nil R, @nil (R * R))) at 1. apply map_nth. }
      unfold place_of. fold size. rewrite (nth_concat _ _ c k GT); [rewrite Q; exact KT|cbn; rewrite map_length; lia|rewrite Q, (proj1 W c); exact K]. }
    split; [|split; [|split; [|split; [|split]]]].
    + rewrite EP. unfold curve_time. cbn [p_set s_tcon s_tline]. destruct c as [|j]; cbn; unfold rd; apply nth_error_nth.
      * exact KT.
      * change (@nil R) with (fst (@nil R, @nil (R * R))) at 1. rewrite map_nth. exact KT.
    + rewrite EP. assert (Q : nth k (map snd (npts m)) 0 = e / nscale_ m) by (apply nth_error_nth; rewrite ND, !nth_error_map, KP; reflexivity).
      destruct c as [|j]; cbn [curve_error p_set s_fe s_fel]; unfold rd; rewrite <- Q; unfold m; rewrite NS; reflexivity.
    + rewrite EP. cbn [p_set s_fall]. unfold val. rewrite nth_error_map, (XF fst). reflexivity.
    + rewrite EP. cbn [p_t]. rewrite nth_error_map, XT. reflexivity.
    + rewrite EP. cbn [p_f]. rewrite nth_error_map, (XF fst). reflexivity.
    + rewrite EP. cbn [p_fe]. rewrite nth_error_map, (XF snd). reflexivity.
  - unfold place_of. rewrite Nat.add_0_r. cbn [p_t p_f p_fe]. rewrite !map_length. fold size.
    rewrite <- (total_concat _ size GT), <- (total_concat _ size (G fst)), <- (total_concat _ size (G snd)). cbn [length]. rewrite !map_length, LN. auto.
Qed.
Lemma prepare_at vmap uniform sets out : prepare vmap uniform sets = Ok out -> exists flag,
  (flag = true <-> exists c, measured vmap (curves sets) c /\ small_average c) /\ (forall c, measured vmap (curves sets) c -> acceptable c) /\
  Forall2 (fun r p => exists ns, set_done vmap uniform flag (r_con r, map snd (r_lines r)) ns /\ prepare_set vmap r ns = Ok p) sets out.
Proof.
  intros E. unfold prepare in E. apply bind_ok in E. destruct E as ([ns rows] & E & P). fold (curves sets) in E. cbn [fst] in P.
  assert (A := proj1 (C47_accepted vmap uniform (curves sets)) (ex_intro _ ns (ex_intro _ rows E))).
  unfold scale_con_line in E. apply bind_ok in E. destruct E as (flag & E & E'). exists flag. split; [|split; [exact A|]].
  - apply first_pass_ok in E. destruct E as (_ & ->). unfold ex_small. split.
    + intros [?|(c & C & S)]; [discriminate|]. exists c. split; auto. apply looked_at_measured. auto.
    + intros (c & C & S). right. exists c. split; auto. apply looked_at_measured. auto.
  - apply sets_done in E'. clear -E' P. revert ns out E' P. induction sets as [|r sets IH]; intros ns out E' P; cbn [curves map] in E'; inversion E' as [|? ? ? ? D F]; subst; cbn [prepare_sets] in P.
    + injection P as <-. constructor.
    + apply bind_ok in P. destruct P as (p & E1 & P). apply bind_ok in P. destruct P as (q & E2 & P). injection P as <-. constructor; [eauto|]. eapply IH; eauto.
Qed.
Lemma measured_in vmap sets r c : In r sets -> measured vmap [(r_con r, map snd (r_lines r))] c -> measured vmap (curves sets) c.
Proof. intros I (con & ls & [[= <- <-]|[]] & M). exists (r_con r), (map snd (r_lines r)). split; [|exact M]. apply (in_map (fun r => (r_con r, map snd (r_lines r)))), I. Qed.
Lemma nth_f2 {A B} (P : A -> B -> Prop) : forall l l', Forall2 P l l' -> forall i x y, nth_error l i = Some x -> nth_error l' i = Some y -> P x y.
Proof. induction 1 as [|a b l l' H F IH]; intros [|i] x y X Y; try discriminate; cbn in X, Y; [injection X as <-; injection Y as <-; exact H|eapply IH; eauto]. Qed.
Lemma sum_nth : forall l, SemisepProofs.sumn (length l) (fun k => nth k l 0) = Rsum l.
Proof.
  induction l as [|x l IH] using rev_ind; [reflexivity|]. rewrite app_length, Nat.add_1_r. cbn [SemisepProofs.sumn].
  rewrite app_nth2, Nat.sub_diag by lia. cbn [nth]. rewrite (SemisepProofs.sumn_ext (length l) _ (fun k => nth k l 0)) by (intros k K; apply app_nth1, K). rewrite IH.
  unfold Rsum. rewrite fold_right_app. cbn [fold_right]. clear. induction l as [|y l IH]; cbn; [ring|]. rewrite <- IH. ring.
Qed.
Section Feed.
Variables vmap uniform : bool.
Variable sets : list rawset.
Hypothesis W : forall r, In r sets -> whole vmap r.

(** The data are taken if every curve with points has a positive average flux and varies,
    and (outside the virtual mode) every continuum has points. *)
Theorem C104_accepted : (exists out, prepare vmap uniform sets = Ok out) <-> forall c, measured vmap (curves sets) c -> acceptable c.
Proof.
  split.
  - intros (out & E). destruct (prepare_at _ _ _ _ E) as (flag & _ & A & _). exact A.
  - intros A. destruct (proj2 (C47_accepted vmap uniform (curves sets)) A) as (ns & rows & E). unfold prepare. fold (curves sets). rewrite E. cbn [bind fst].
    unfold scale_con_line in E. apply bind_ok in E. destruct E as (flag & _ & E). apply sets_done in E. revert ns E. induction sets as [|r l IH]; intros ns E; cbn [curves map] in E; inversion E as [|? ns0 ? ns' D F]; subst; cbn [prepare_sets].
    + eauto.
    + destruct (set_divided vmap uniform flag r ns0) as (LN & DV); [apply W; left; reflexivity| |exact D|].
      { intros c C. apply A. apply (measured_in vmap (r :: l) r); [left; reflexivity|exact C]. }
      destruct D as (n0 & nl & -> & D0 & _). cbn [prepare_set]. rewrite !combine_ok. cbn [bind].
      assert (EM : exists em, con_mean vmap (npts n0) = Ok em).
      { unfold con_mean. destruct vmap; [eauto|]. destruct (DV 0%nat ltac:(lia)) as (_ & N0 & _). cbn [nth raw_points] in N0. rewrite N0.
        destruct (A (r_con r)) as (NE & _); [exists (r_con r), (map snd (r_lines r)); split; [left; reflexivity|left; auto]|]. destruct (r_con r); [contradiction|]. cbn. eauto. }
      destruct EM as (em & ->). cbn [bind]. destruct (IH ltac:(intros; apply W; right; assumption)) with (ns := ns') as (q & ->).
      * intros c (con & ls & I & M). apply A. exists con, ls. split; [right; exact I|exact M].
      * exact F.
      * cbn [bind]. eauto.
Qed.
Variable out : list prepared.
Hypothesis E : prepare vmap uniform sets = Ok out.
(** Every set is passed on whole. *)
Theorem C104_data : Forall2 holds sets out.
Proof.
  destruct (prepare_at _ _ _ _ E) as (flag & _ & A & F). clear E. assert (W' := W). clear W. revert A W'. induction F as [|r p l l' (ns & D & P) F IH]; intros A W'; [constructor|]. constructor.
  - assert (WR : whole vmap r) by (apply W'; left; reflexivity). destruct (set_divided vmap uniform flag r ns WR) as (LN & DV); [|exact D|].
    + intros c C. apply A. apply (measured_in vmap (r :: l) r); [left; reflexivity|exact C].
    + eapply set_holds; eauto.
  - apply IH.
    + intros c (con & ls & I & M). apply A. exists con, ls. split; [right; exact I|exact M].
    + intros r' I. apply W'. right. exact I.
Qed.
Lemma set_curve flag r ns c : whole vmap r -> set_done vmap uniform flag (r_con r, map snd (r_lines r)) ns -> (c < 1 + length (r_lines r))%nat -> raw_points r c <> [] ->
  scale_curve uniform flag (raw_points r c) = Ok (nth c ns no_curve).
Proof.
  intros [_ V] (n0 & nl & -> & D0 & FL) C N. cbn [fst snd] in *. destruct c as [|j]; cbn [nth raw_points] in *.
  - unfold con_done in D0. destruct vmap; [rewrite (V eq_refl) in N; contradiction|exact D0].
  - assert (J : (j < length (map snd (r_lines r)))%nat) by (rewrite map_length; lia).
    assert (D := Forall2_nth_of _ [] no_curve _ _ FL j J). change (@nil (R * R)) with (snd (@nil R, @nil (R * R))) in D at 1. rewrite map_nth in D.
    set (x := snd (nth j (r_lines r) ([], []))) in N |- *. change (line_done uniform flag x (nth j nl no_curve)) in D. clearbody x. destruct x; [contradiction|exact D].
Qed.
Lemma stored_at r p c s : holds r p -> whole vmap r -> (c < 1 + length (r_lines r))%nat -> nth_error (p_scale p) c = Some s -> 0 < s /\
  forall k, (k < length (raw_points r c))%nat -> s_fall (p_set p) (place_of r c k) = nth k (map fst (raw_points r c)) 0 / s.
Proof.
  intros (_ & H & _) [WT _] C ES. destruct (H c C) as (_ & s' & ES' & SP & _ & _ & HK). rewrite ES in ES'. injection ES' as <-. split; [exact SP|].
  intros k K. destruct (nth_error (raw_points r c) k) as [[f e]|] eqn:KP; [|apply nth_error_None in KP; lia].
  destruct (nth_error (raw_times r c) k) as [t|] eqn:KT; [|apply nth_error_None in KT; rewrite WT in KT; lia].
  destruct (HK k t f e KT KP) as (_ & _ & -> & _). f_equal. symmetry. apply nth_error_nth. rewrite nth_error_map, KP. reflexivity.
Qed.
Lemma at_index i r p : nth_error sets i = Some r -> nth_error out i = Some p -> holds r p /\ whole vmap r.
Proof. intros R P. split; [exact (nth_f2 _ _ _ C104_data i r p R P)|apply W; eapply nth_error_In, R]. Qed.
Lemma ends_of r p c s mx mn : holds r p -> whole vmap r -> (c < 1 + length (r_lines r))%nat -> nth_error (p_scale p) c = Some s ->
  is_largest mx (map fst (raw_points r c)) -> is_smallest mn (map fst (raw_points r c)) -> stored_ends r p c (mx / s) (mn / s).
Proof.
  intros H WR C ES [I1 L1] [I2 L2]. destruct (stored_at r p c s H WR C ES) as (SP & HK). unfold stored_ends.
  assert (AT : forall x, In x (map fst (raw_points r c)) -> exists k, (k < length (raw_points r c))%nat /\ s_fall (p_set p) (place_of r c k) = x / s).
  { intros x X. destruct (In_nth _ _ 0 X) as (k & K & <-). rewrite map_length in K. exists k. split; [exact K|apply HK, K]. }
  split; [apply AT, I1|]. split; [apply AT, I2|]. intros k K. rewrite (HK k K).
  assert (IN : In (nth k (map fst (raw_points r c)) 0) (map fst (raw_points r c))) by (apply nth_In; rewrite map_length; exact K).
  split; apply Rmult_le_compat_r; try (left; apply Rinv_0_lt_compat, SP); auto.
Qed.
(** flux_minmax: centre and half width of the interval of the stored fluxes *)
Theorem C104_ends : forall i r p c, nth_error sets i = Some r -> nth_error out i = Some p -> (c < 1 + length (r_lines r))%nat -> raw_points r c <> [] ->
  exists m h, nth_error (p_minmax p) c = Some (Some (m, h)) /\ stored_ends r p c (m + h) (m - h).
Proof.
  intros i r p c RI PI C N. destruct (at_index i r p RI PI) as (H & WR). destruct (prepare_at _ _ _ _ E) as (flag & _ & A & F).
  destruct (nth_f2 _ _ _ F i r p RI PI) as (ns & D & P). assert (SC := set_curve flag r ns c WR D C N).
  destruct (curve_stats_ok _ N) as (mn & mx & L & S & ES). unfold scale_curve in SC. rewrite ES in SC. cbn [bind] in SC. injection SC as SC.
  destruct (prepare_set_eq _ _ _ _ P) as (n0 & nl & NS & _ & EP).
  destruct (set_divided vmap uniform flag r ns WR) as (LN & _); [intros x X; apply A, (measured_in vmap sets r); [eapply nth_error_In, RI|exact X]|exact D|].
  set (s := if uniform then 1 else if flag then (mx - mn) / 2 else average (raw_points r c)) in *.
  assert (SS : nth_error (p_scale p) c = Some s) by (rewrite EP; cbn [p_scale]; rewrite nth_error_map, (nth_error_nth' ns no_curve), <- SC by lia; reflexivity).
  exists ((mn + mx) / 2 / s), ((mx - mn) / 2 / s). split; [rewrite EP; cbn [p_minmax]; rewrite nth_error_map, (nth_error_nth' ns no_curve), <- SC by lia; reflexivity|].
  assert (SP := proj1 (stored_at r p c s H WR C SS)).
  replace ((mn + mx) / 2 / s + (mx - mn) / 2 / s) with (mx / s) by (field; lra). replace ((mn + mx) / 2 / s - (mx - mn) / 2 / s) with (mn / s) by (field; lra).
  apply ends_of; assumption.
Qed.
(** Without parameters shared by the sets, either all stored curves have the average flux
    1, or all have the half range 1. *)
Theorem C104_normal : uniform = false -> exists use_range : bool, (use_range = true <-> exists c, measured vmap (curves sets) c /\ small_average c) /\
  forall i r p c, nth_error sets i = Some r -> nth_error out i = Some p -> (c < 1 + length (r_lines r))%nat -> raw_points r c <> [] ->
    if use_range then exists hi lo, stored_ends r p c hi lo /\ (hi - lo) / 2 = 1
    else SemisepProofs.sumn (length (raw_points r c)) (fun k => s_fall (p_set p) (place_of r c k)) / INR (length (raw_points r c)) = 1.
Proof.
  intros U. destruct (prepare_at _ _ _ _ E) as (flag & FL & A & F). exists flag. split; [exact FL|]. intros i r p c RI PI C N.
  destruct (at_index i r p RI PI) as (H & WR). destruct (nth_f2 _ _ _ F i r p RI PI) as (ns & D & P). assert (SC := set_curve flag r ns c WR D C N).
  destruct (curve_stats_ok _ N) as (mn & mx & L & S & ES). unfold scale_curve in SC. rewrite ES, U in SC. cbn [bind] in SC. injection SC as SC.
  destruct (prepare_set_eq _ _ _ _ P) as (n0 & nl & NS & _ & EP).
  destruct (set_divided vmap uniform flag r ns WR) as (LN & _); [intros x X; apply A, (measured_in vmap sets r); [eapply nth_error_In, RI|exact X]|exact D|].
  set (s := if flag then (mx - mn) / 2 else average (raw_points r c)) in *.
  assert (SS : nth_error (p_scale p) c = Some s) by (rewrite EP; cbn [p_scale]; rewrite nth_error_map, (nth_error_nth' ns no_curve), <- SC by lia; reflexivity).
  destruct (stored_at r p c s H WR C SS) as (SP & HK). unfold s in *. destruct flag.
  - exists (mx / ((mx - mn) / 2)), (mn / ((mx - mn) / 2)). split; [apply ends_of; assumption|]. field. lra.
  - assert (IN : INR (length (raw_points r c)) <> 0) by (apply not_0_INR; destruct (raw_points r c); [contradiction|discriminate]).
    rewrite (SemisepProofs.sumn_ext _ _ (fun k => / average (raw_points r c) * nth k (map fst (raw_points r c)) 0)) by (intros k K; rewrite (HK k K); unfold Rdiv; ring).
    rewrite SemisepProofs.sumn_scal. rewrite <- (map_length fst (raw_points r c)) at 1. rewrite sum_nth. unfold average at 1, mean_of. rewrite map_length.
    assert (Q : average (raw_points r c) = Rsum (map fst (raw_points r c)) / INR (length (raw_points r c))) by (unfold average, mean_of; rewrite map_length; reflexivity).
    rewrite Q in SP. assert (NZ : Rsum (map fst (raw_points r c)) <> 0) by (intros Z; rewrite Z in SP; unfold Rdiv in SP; rewrite Rmult_0_l in SP; lra). field. split; assumption.
Qed.
(** Sets that share parameters are not normalised. *)
Theorem C104_raw : uniform = true -> forall i r p c, nth_error sets i = Some r -> nth_error out i = Some p -> (c < 1 + length (r_lines r))%nat -> nth_error (p_scale p) c = Some 1.
Proof.
  intros U i r p c RI PI C. destruct (at_index i r p RI PI) as (H & WR). destruct (prepare_at _ _ _ _ E) as (flag & FL & A & F).
  destruct (nth_f2 _ _ _ F i r p RI PI) as (ns & D & P). destruct (raw_points r c) as [|q l] eqn:EQ.
  - destruct H as (_ & H & _). destruct (H c C) as (_ & s & SS & _ & _ & S1 & _). rewrite SS. f_equal. apply S1. rewrite EQ. reflexivity.
  - assert (N : raw_points r c <> []) by (rewrite EQ; discriminate). assert (SC := set_curve flag r ns c WR D C N). destruct (prepare_set_eq _ _ _ _ P) as (n0 & nl & NS & _ & EP).
    destruct (set_divided vmap uniform flag r ns WR) as (LN & _); [intros x X; apply A, (measured_in vmap sets r); [eapply nth_error_In, RI|exact X]|exact D|].
    destruct (curve_stats_ok _ N) as (mn & mx & L & S & ES). unfold scale_curve in SC. rewrite ES, U in SC. cbn [bind] in SC. injection SC as SC.
    rewrite EP. cbn [p_scale]. rewrite nth_error_map, (nth_error_nth' ns no_curve), <- SC by lia. reflexivity.
Qed.
End Feed.

(** ** Units of flux *)
Lemma reunit_stats c c' b a h mn mx : 0 < b -> c' = map (fun p => (b * fst p, b * snd p)) c -> curve_stats c = Ok (a, h, mn, mx) -> curve_stats c' = Ok (b * a, b * h, b * mn, b * mx).
Proof.
  intros B -> E. unfold curve_stats in *. destruct c as [|p c]; [discriminate|]. unfold get in *. cbn [nth_error bind map fst] in *. 
  assert (G : forall c m x y, fold_left (fun s p => let '(m, mx, mn) := s in (m + fst p, if Rlt_dec mx (fst p) then fst p else mx, if Rlt_dec (fst p) mn then fst p else mn))
      (map (fun p : R * R => (b * fst p, b * snd p)) c) (b * m, b * x, b * y)
    = let '(m', x', y') := fold_left (fun s p => let '(m, mx, mn) := s in (m + fst p, if Rlt_dec mx (fst p) then fst p else mx, if Rlt_dec (fst p) mn then fst p else mn)) c (m, x, y) in (b * m', b * x', b * y')).
  { intros l. induction l as [|q l IH]; intros m x y; cbn [map fold_left fst]; [reflexivity|].
    assert (L : forall u v, (b * u < b * v <-> u < v)) by (intros u v; split; [apply Rmult_lt_reg_l, B|apply Rmult_lt_compat_l, B]).
    rewrite <- IH. f_equal. f_equal; [f_equal; [ring|]|].
    - destruct (Rlt_dec x (fst q)) as [H|H], (Rlt_dec (b * x) (b * fst q)) as [H'|H']; try reflexivity; [apply L in H; contradiction|apply (L x) in H'; contradiction].
    - destruct (Rlt_dec (fst q) y) as [H|H], (Rlt_dec (b * fst q) (b * y)) as [H'|H']; try reflexivity; [apply L in H; contradiction|apply (L (fst q)) in H'; contradiction]. }
  unfold scan in *. specialize (G (p :: c) 0 (fst p) (fst p)). rewrite Rmult_0_r in G. cbn [map] in G. rewrite G. clear G.
  destruct (fold_left _ (p :: c) _) as [[m x] y]. injection E as <- <- <- <-. cbn [length]. rewrite map_length. set (N := INR (S (length c))).
  assert (Q1 : b * m / N = b * (m / N)) by (unfold Rdiv; ring). assert (Q2 : (b * x - b * y) / 2 = b * ((x - y) / 2)) by (unfold Rdiv; ring). rewrite Q1, Q2. reflexivity.
Qed.

Lemma reunit_check c c' flag : reunit c c' -> check_curve c' flag = check_curve c flag.
Proof.
  intros (b & B & E). unfold check_curve. destruct c as [|p c]; [subst c'; reflexivity|].
  destruct (curve_stats_ok (p :: c)) as (mn & mx & _ & _ & ES); [discriminate|]. rewrite ES, (reunit_stats _ _ _ _ _ _ _ B E ES). cbn [bind].
  set (a := average (p :: c)). set (h := (mx - mn) / 2).
  assert (L : forall u v, (b * u < b * v <-> u < v)) by (intros u v; split; [apply Rmult_lt_reg_l, B|apply Rmult_lt_compat_l, B]).
  assert (Z1 : b * a <= 0 <-> a <= 0) by (specialize (L 0 a); rewrite Rmult_0_r in L; split; intros Q; apply Rnot_lt_le; intros Q'; apply (proj2 L) in Q' || apply (proj1 L) in Q'; lra).
  assert (Z2 : b * h = 0 <-> h = 0) by (split; intros Q; [apply Rmult_integral in Q; destruct Q; lra|rewrite Q; ring]).
  assert (Z3 : b * a < b * h / 100 <-> a < h / 100) by (rewrite <- (L a (h / 100)); replace (b * h / 100) with (b * (h / 100)) by (unfold Rdiv; ring); reflexivity).
  destruct (Rle_dec a 0), (Rle_dec (b * a) 0); try tauto. destruct (Req_EM_T h 0), (Req_EM_T (b * h) 0); try tauto. destruct (Rlt_dec a (h / 100)), (Rlt_dec (b * a) (b * h / 100)); tauto.
Qed.
Lemma reunit_nil c c' : reunit c c' -> (c' = [] <-> c = []).
Proof. intros (b & _ & ->). destruct c; cbn; split; congruence. Qed.
Definition same_curve (n n' : ncurve) : Prop := npts n' = npts n /\ nminmax n' = nminmax n.
Lemma reunit_scale c c' flag : reunit c c' -> acceptable c -> exists n n', scale_curve false flag c = Ok n /\ scale_curve false flag c' = Ok n' /\ same_curve n n'.
Proof.
  intros (b & B & E) A. assert (A' := A). destruct A as (N & AV & HR). destruct (curve_stats_ok c N) as (mn & mx & L & S & ES).
  assert (D := curve_divided false flag c). unfold scale_curve in *. rewrite ES, (reunit_stats _ _ _ _ _ _ _ B E ES) in *. cbn [bind] in *. specialize (D _ A' eq_refl). destruct D as (SP & _). cbn [nscale_] in SP.
  eexists _, _. split; [reflexivity|]. split; [reflexivity|]. unfold same_curve. cbn [npts nminmax]. subst c'.
  set (s := if flag then (mx - mn) / 2 else average c) in *.
  assert (ES' : (if flag then b * ((mx - mn) / 2) else b * average c) = b * s) by (unfold s; destruct flag; reflexivity). rewrite ES'.
  split; [rewrite map_map; apply map_ext; intros q; cbn [fst snd]; f_equal; field; lra|]. do 2 f_equal; field; lra.
Qed.
Lemma acceptable_check c flag flag' : check_curve c flag = Ok flag' -> acceptable c.
Proof. intros E. apply check_curve_ok in E. apply E. Qed.
(** the two passes *)
Lemma reunit_lines : forall ls ls', Forall2 reunit ls ls' -> forall flag, check_lines ls' flag = check_lines ls flag.
Proof.
  induction 1 as [|c c' ls ls' R F IH]; intros flag; [reflexivity|]. cbn [check_lines]. assert (N := reunit_nil _ _ R).
  destruct c as [|p c], c' as [|p' c']; try (exfalso; destruct N as [N1 N2]; (discriminate (N1 eq_refl) || discriminate (N2 eq_refl))); [apply IH|].
  rewrite (reunit_check _ _ flag R). destruct (check_curve (p :: c) flag); cbn [bind]; auto.
Qed.
Lemma reunit_first vmap : forall ss ss', Forall2 (fun s s' => reunit (fst s) (fst s') /\ Forall2 reunit (snd s) (snd s')) ss ss' -> forall flag, first_pass vmap ss' flag = first_pass vmap ss flag.
Proof.
  induction 1 as [|[c l] [c' l'] ss ss' [R RL] F IH]; intros flag; [reflexivity|]. cbn [first_pass fst snd] in *. rewrite (reunit_check _ _ flag R).
  destruct vmap; cbn [bind].
  - rewrite (reunit_lines _ _ RL). destruct (check_lines l flag); cbn [bind]; auto.
  - destruct (check_curve c flag) as [f| | |]; cbn [bind]; auto. rewrite (reunit_lines _ _ RL). destruct (check_lines l f); cbn [bind]; auto.
Qed.
Lemma reunit_done_lines flag : forall ls ls', Forall2 reunit ls ls' -> (forall c, In c ls -> c <> [] -> acceptable c) -> forall nl nl', Forall2 (line_done false flag) ls nl -> Forall2 (line_done false flag) ls' nl' -> Forall2 same_curve nl nl'.
Proof.
  induction 1 as [|c c' ls ls' R F IH]; intros A nl nl' D D'; inversion D as [|? n ? nl0 H1 H2]; inversion D' as [|? n' ? nl0' H1' H2']; subst; [constructor|].
  constructor; [|apply IH; auto; intros x X; apply A; right; exact X]. assert (N := reunit_nil _ _ R). destruct c as [|p c], c' as [|p' c']; try (exfalso; destruct N as [N1 N2]; (discriminate (N1 eq_refl) || discriminate (N2 eq_refl))).
  - cbn in H1, H1'. subst. split; reflexivity.
  - cbn [line_done] in H1, H1'. destruct (reunit_scale _ _ flag R) as (m & m' & E1 & E2 & SC); [apply A; [left; reflexivity|discriminate]|]. rewrite H1 in E1. rewrite H1' in E2. injection E1 as ->. injection E2 as ->. exact SC.
Qed.
(** what is left the same: all but the factors *)
Definition same_feed (p p' : prepared) : Prop := p_set p' = p_set p /\ p_minmax p' = p_minmax p /\ p_t p' = p_t p /\ p_f p' = p_f p /\ p_fe p' = p_fe p.
Lemma same_maps {A} (f : ncurve -> A) nl nl' : (forall n n', same_curve n n' -> f n' = f n) -> Forall2 same_curve nl nl' -> map f nl' = map f nl.
Proof. intros H. induction 1 as [|n n' nl nl' S F IH]; [reflexivity|]. cbn [map]. rewrite IH, (H n n' S). reflexivity. Qed.
Lemma same_nth nl nl' j : Forall2 same_curve nl nl' -> npts (nth j nl' no_curve) = npts (nth j nl no_curve).
Proof. intros F. revert j. induction F as [|n n' nl nl' [S _] F IH]; intros [|j]; cbn; auto. Qed.
Lemma same_prepare vmap r r' ns ns' : r_tcon r' = r_tcon r -> map fst (r_lines r') = map fst (r_lines r) -> Forall2 same_curve ns ns' ->
  alike same_feed (prepare_set vmap r ns) (prepare_set vmap r' ns').
Proof.
  intros T TL F. destruct F as [|n0 n0' nl nl' [S0 M0] F]; [exact Logic.I|]. cbn [prepare_set]. rewrite T, TL, S0.
  rewrite (same_maps (fun n => map fst (npts n)) nl nl'), (same_maps (fun n => map snd (npts n)) nl nl') by (try exact F; intros n n' [-> _]; reflexivity).
  destruct (con_mean vmap (npts n0)); cbn [bind]; try exact Logic.I. rewrite !combine_ok. cbn [bind alike]. unfold same_feed. cbn [p_set p_minmax p_t p_f p_fe]. split; [|split; [|auto]].
  - rewrite <- (f2_len _ _ _ F). f_equal; apply FunctionalExtensionality.functional_extensionality; intros j; rewrite (same_nth nl nl' j F); reflexivity.
  - cbn [map]. rewrite M0. f_equal. apply same_maps; [intros n n' [_ ->]; reflexivity|exact F].
Qed.
(** Fluxes and errors of every curve in a unit of its own: the run takes or rejects the
    data alike, and the likelihoods are given the same numbers, if the sets share no
    parameters. *)
Theorem C104_units : forall vmap sets sets', (forall r, In r sets -> whole vmap r) -> Forall2 reunit_set sets sets' ->
  alike (Forall2 same_feed) (prepare vmap false sets) (prepare vmap false sets').
Proof.
  intros vmap sets sets' W F.
  assert (FC : Forall2 (fun s s' => reunit (fst s) (fst s') /\ Forall2 reunit (snd s) (snd s')) (curves sets) (curves sets')).
  { clear W. induction F as [|r r' l l' (_ & R & RL) F IH]; cbn [curves map]; constructor; [|exact IH]. cbn [fst snd]. split; [exact R|].
    induction RL as [|x x' xs xs' [_ X] RL IHL]; cbn [map]; constructor; assumption. }
  unfold prepare. fold (curves sets). fold (curves sets'). unfold scale_con_line. rewrite (reunit_first vmap _ _ FC). destruct (first_pass vmap (curves sets) false) as [flag| | |] eqn:E1; cbn [bind alike]; auto.
  assert (A : forall c, measured vmap (curves sets) c -> acceptable c).
  { apply first_pass_ok in E1. destruct E1 as (A & _). intros c C. apply A, looked_at_measured, C. }
  assert (A' : forall c, measured vmap (curves sets') c -> acceptable c).
  { assert (E2 := E1). rewrite <- (reunit_first vmap _ _ FC) in E2. apply first_pass_ok in E2. destruct E2 as (A' & _). intros c C. apply A', looked_at_measured, C. }
  destruct (second_pass_ok vmap false flag (curves sets) 0 None A) as (out & rows & E2 & _). destruct (second_pass_ok vmap false flag (curves sets') 0 None A') as (out' & rows' & E3 & _).
  rewrite E2, E3. cbn [bind fst]. apply sets_done in E2. apply sets_done in E3. clear E1 FC A'. revert out out' E2 E3.
  induction F as [|r r' l l' (T & R & RL) F IH]; intros out out' D D'; cbn [curves map] in D, D'; inversion D as [|? ns ? o H1 H2]; inversion D' as [|? ns' ? o' H1' H2']; subst; cbn [prepare_sets alike]; [constructor|].
  assert (SN : Forall2 same_curve ns ns').
  { destruct H1 as (n0 & nl & -> & C0 & CL). destruct H1' as (n0' & nl' & -> & C0' & CL'). cbn [fst snd] in *. constructor.
    - destruct (W r (or_introl eq_refl)) as [_ V]. unfold con_done in C0, C0'. destruct vmap.
      + specialize (V eq_refl). subst n0 n0'. rewrite V, (proj2 (reunit_nil _ _ R) V). split; reflexivity.
      + destruct (reunit_scale _ _ flag R) as (m & m' & X1 & X2 & SC); [apply A; exists (r_con r), (map snd (r_lines r)); split; [left; reflexivity|left; auto]|].
        rewrite C0 in X1. rewrite C0' in X2. injection X1 as ->. injection X2 as ->. exact SC.
    - refine (reunit_done_lines flag (map snd (r_lines r)) (map snd (r_lines r')) _ _ nl nl' CL CL').
      + clear -RL. induction RL as [|x x' xs xs' [_ X] RL IHL]; cbn [map]; constructor; assumption.
      + intros c C N. apply A. exists (r_con r), (map snd (r_lines r)). split; [left; reflexivity|right; auto]. }
  assert (TL : map fst (r_lines r') = map fst (r_lines r)) by (clear -RL; induction RL as [|x x' xs xs' [X _] RL IHL]; cbn [map]; [reflexivity|rewrite IHL, X; reflexivity]).
  assert (SP := same_prepare vmap r r' ns ns' T TL SN).
  destruct (prepare_set vmap r ns) as [p| | |], (prepare_set vmap r' ns') as [p'| | |]; cbn [alike bind] in *; try contradiction; auto.
  assert (Q : alike (Forall2 same_feed) (prepare_sets vmap l o) (prepare_sets vmap l' o')).
  { apply IH; auto; [intros; apply W; right; assumption|]. intros c (con & ls & I & M). apply A. exists con, ls. split; [right; exact I|exact M]. }
  destruct (prepare_sets vmap l o), (prepare_sets vmap l' o'); cbn [alike bind] in *; try contradiction; auto.
Qed.
(** ** Concrete cases *)
Lemma two_points_ok a e : 0 < a -> acceptable [(a, e); (2 * a, e)].
Proof.
  intros A. split; [discriminate|]. split.
  - unfold average, mean_of, Rsum. cbn. lra.
  - intros (mx & mn & [_ L2] & [_ S2] & H). cbn [map fst] in *. assert (Q1 := L2 (2 * a) (or_intror (or_introl eq_refl))). assert (Q2 := S2 a (or_introl eq_refl)). lra.
Qed.
(** one set: a continuum of two points, a line of two points and one without any *)
Definition small_curve (b : R) : curve := [(b, b / 10); (2 * b, b / 10)].
Definition small_set (a b : R) : rawset := Raw [0; 5] (small_curve a) [([1; 7], small_curve b); ([], [])].
Lemma small_whole vmap a b : vmap = false -> whole vmap (small_set a b).
Proof. intros V. split; [intros [|[|[|[|c]]]]; reflexivity|congruence]. Qed.
Lemma small_ok uniform a b : 0 < a -> 0 < b -> exists p, prepare false uniform [small_set a b] = Ok [p] /\ holds (small_set a b) p.
Proof.
  intros A B. assert (W : forall r, In r [small_set a b] -> whole false r) by (intros r [<-|[]]; apply small_whole; reflexivity).
  destruct (proj2 (C104_accepted false uniform [small_set a b] W)) as (out & E).
  - intros c (con & ls & [[= <- <-]|[]] & [[_ ->]|[[<-|[<-|[]]] N]]); [apply two_points_ok, A|apply two_points_ok, B|contradiction].
  - assert (D := C104_data false uniform _ W _ E). inversion D as [|? p ? out' H F]; subst. inversion F; subst. exists p. auto.
Qed.
Lemma small_reunit a b a' b' : 0 < a -> 0 < b -> 0 < a' -> 0 < b' -> Forall2 reunit_set [small_set a b] [small_set a' b'].
Proof.
  intros A B A' B'. assert (G : forall x y, 0 < x -> 0 < y -> reunit (small_curve x) (small_curve y)).
  { intros x y X Y. exists (y / x). split; [apply Rdiv_lt_0_compat; assumption|]. unfold small_curve. cbn [map fst snd].
    replace (y / x * x) with y by (field; lra). replace (y / x * (x / 10)) with (y / 10) by (field; lra). replace (y / x * (2 * x)) with (2 * y) by (field; lra). reflexivity. }
  constructor; [|constructor]. split; [reflexivity|]. split; [apply G; assumption|]. constructor; [split; [reflexivity|apply G; assumption]|]. constructor; [|constructor]. split; [reflexivity|]. exists 1. split; [lra|reflexivity].
Qed.
(** The continuum in a unit a thousand times smaller, the line in one ten times larger:
    the same numbers for the likelihoods. *)
Example C104_case : (forall r, In r [small_set 3 40] -> whole false r) /\ Forall2 reunit_set [small_set 3 40] [small_set 3000 4] /\
  exists p p', prepare false false [small_set 3 40] = Ok [p] /\ prepare false false [small_set 3000 4] = Ok [p'] /\ same_feed p p' /\
    s_ncon (p_set p) = 2%nat /\ s_nline (p_set p) 0%nat = 2%nat /\ s_tline (p_set p) 0%nat 1%nat = 7 /\ s_fall (p_set p) 3%nat = 2 * s_fall (p_set p) 2%nat.
Proof.
  split; [intros r [<-|[]]; apply small_whole; reflexivity|]. split; [apply small_reunit; lra|].
  destruct (small_ok false 3 40) as (p & E & H); try lra. destruct (small_ok false 3000 4) as (p' & E' & H'); try lra. exists p, p'. split; [exact E|]. split; [exact E'|].
  assert (U := C104_units false [small_set 3 40] [small_set 3000 4]). rewrite E, E' in U. cbn [alike] in U. split.
  - assert (X : Forall2 same_feed [p] [p']) by (apply U; [intros r [<-|[]]; apply small_whole; reflexivity|apply small_reunit; lra]). inversion X; assumption.
  - destruct H as (_ & H & _). destruct (H 0%nat) as (N0 & _); [cbn; lia|]. destruct (H 1%nat) as (N1 & s & _ & SP & _ & _ & HK); [cbn; lia|].
    destruct (HK 1%nat 7 (2 * 40) (40 / 10) eq_refl eq_refl) as (T & _ & F1 & _). destruct (HK 0%nat 1 40 (40 / 10) eq_refl eq_refl) as (_ & _ & F0 & _).
    split; [exact N0|]. split; [exact N1|]. split; [exact T|]. cbn in F1, F0. rewrite F1, F0. field. lra.
Qed.
(** Sets that share parameters are given the fluxes as they are, so that the likelihoods
    see the unit. *)
Theorem C104_uniform_refuted : exists sets sets', (forall r, In r sets -> whole false r) /\ Forall2 reunit_set sets sets' /\ ~ alike (Forall2 same_feed) (prepare false true sets) (prepare false true sets').
Proof.
  exists [small_set 1 1], [small_set 1 2]. assert (W : forall a b r, In r [small_set a b] -> whole false r) by (intros a b r [<-|[]]; apply small_whole; reflexivity).
  split; [apply W|]. split; [apply small_reunit; lra|].
  destruct (small_ok true 1 1) as (p & E & H); try lra. destruct (small_ok true 1 2) as (p' & E' & H'); try lra. rewrite E, E'. cbn [alike]. intros X. inversion X as [|? ? ? ? (S & _) F]; subst.
  assert (Z := C104_raw false true _ (W 1 1) _ E eq_refl 0%nat _ _ 1%nat eq_refl eq_refl ltac:(cbn; lia)). assert (Z' := C104_raw false true _ (W 1 2) _ E' eq_refl 0%nat _ _ 1%nat eq_refl eq_refl ltac:(cbn; lia)).
  destruct H as (_ & H & _). destruct H' as (_ & H' & _). destruct (H 1%nat) as (_ & s & SS & _ & _ & _ & HK); [cbn; lia|]. destruct (H' 1%nat) as (_ & s' & SS' & _ & _ & _ & HK'); [cbn; lia|].
  destruct (HK 0%nat 1 1 (1 / 10) eq_refl eq_refl) as (_ & _ & F1 & _). destruct (HK' 0%nat 1 2 (2 / 10) eq_refl eq_refl) as (_ & _ & F2 & _).
  cbn in F1, F2. rewrite S in F2. rewrite F1 in F2. rewrite Z in SS. rewrite Z' in SS'. injection SS as <-. injection SS' as <-. lra.
Qed.
Print Assumptions C104_accepted.
Print Assumptions C104_data.
Print Assumptions C104_ends.
Print Assumptions C104_normal.
Print Assumptions C104_units.
Print Assumptions C104_raw.
Print Assumptions C104_uniform_refuted.
