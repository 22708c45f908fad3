(** Properties C47 and C59: normalisation of the data, times of reconstruction. *)
From Coq Require Import Reals ZArith List Bool Arith Lia Lra Permutation.
From Verif Require Import CPrelude SemisepModel RecModel RecProofs PropRec.
Import ListNotations.
Open Scope R_scope.

(** ** C47.  Average flux of a curve and half the difference between its largest and
    its smallest flux. *)
Definition average (c : curve) : R := mean_of (map fst c).
Definition is_largest (x : R) (l : list R) : Prop := In x l /\ forall y, In y l -> y <= x.
Definition is_smallest (x : R) (l : list R) : Prop := In x l /\ forall y, In y l -> x <= y.
Definition half_range (c : curve) (h : R) : Prop :=
  exists hi lo, is_largest hi (map fst c) /\ is_smallest lo (map fst c) /\ h = (hi - lo) / 2.
(** The curves that are looked at: in velocity-map mode the continuum has no data;
    a line may be empty. *)
Definition measured (vmap : bool) (sets : list (curve * list curve)) (c : curve) : Prop :=
  exists con ls, In (con, ls) sets /\ (vmap = false /\ c = con \/ In c ls /\ c <> []).
Definition acceptable (c : curve) : Prop := c <> [] /\ 0 < average c /\ ~ half_range c 0.
(** Half ranges are used as soon as one curve has an average far below its half range. *)
Definition small_average (c : curve) : Prop := exists h, half_range c h /\ average c < h / 100.
(** The factor of a curve. *)
Definition factor (uniform use_range : bool) (c : curve) (s : R) : Prop :=
  if uniform then s = 1 else if use_range then half_range c s else s = average c.
(** Dividing by the factor, and multiplying the result by it. *)
Definition normalised (uniform use_range : bool) (c : curve) (n : ncurve) : Prop :=
  0 < nscale_ n /\ factor uniform use_range c (nscale_ n) /\
  length (npts n) = length c /\
  (forall k f e, nth_error c k = Some (f, e) ->
     exists f' e', nth_error (npts n) k = Some (f', e') /\ f' * nscale_ n = f /\ e' * nscale_ n = e).
Definition line_normalised (uniform use_range : bool) (c : curve) (n : ncurve) : Prop :=
  match c with [] => nscale_ n = 1 /\ npts n = [] | _ => normalised uniform use_range c n end.
Definition con_normalised (vmap uniform use_range : bool) (c : curve) (n : ncurve) : Prop :=
  if vmap then nscale_ n = 1 /\ npts n = c else normalised uniform use_range c n.

Lemma scan_ok : forall (c : curve) m mx mn, 
  let '(m', mx', mn') := fold_left (fun s p => let '(m, mx, mn) := s in
    (m + fst p, if Rlt_dec mx (fst p) then fst p else mx, if Rlt_dec (fst p) mn then fst p else mn)) c (m, mx, mn) in
  m' = m + Rsum (map fst c) /\ is_largest mx' (mx :: map fst c) /\ is_smallest mn' (mn :: map fst c).
Proof.
  induction c as [|p c IH]; intros m mx mn; cbn [fold_left map].
  - split; [cbn; lra|]. split; (split; [left; reflexivity|intros y [<-|[]]; lra]).
  - specialize (IH (m + fst p) (if Rlt_dec mx (fst p) then fst p else mx) (if Rlt_dec (fst p) mn then fst p else mn)).
    destruct (fold_left _ c _) as [[m' mx'] mn']. destruct IH as (E & [I1 L1] & [I2 L2]). split; [rewrite E; cbn [Rsum fold_right]; unfold Rsum; lra|].
    split; split.
    + destruct I1 as [<-|I1]; [|right; right; auto]. destruct (Rlt_dec mx (fst p)); [right; left|left]; auto.
    + assert (Q := L1 _ (or_introl eq_refl)). intros y [<-|[<-|Y]].
      * destruct (Rlt_dec mx (fst p)); lra.
      * destruct (Rlt_dec mx (fst p)); lra.
      * apply L1. right. auto.
    + destruct I2 as [<-|I2]; [|right; right; auto]. destruct (Rlt_dec (fst p) mn); [right; left|left]; auto.
    + assert (Q := L2 _ (or_introl eq_refl)). intros y [<-|[<-|Y]].
      * destruct (Rlt_dec (fst p) mn); lra.
      * destruct (Rlt_dec (fst p) mn); lra.
      * apply L2. right. auto.
Qed.
Lemma curve_stats_ok : forall c, c <> [] -> exists mn mx, is_largest mx (map fst c) /\ is_smallest mn (map fst c) /\
  curve_stats c = Ok (average c, (mx - mn) / 2, mn, mx).
Proof.
  intros [|p c] N; [congruence|]. unfold curve_stats. cbn [get nth_error bind]. unfold get. cbn [nth_error bind]. unfold scan.
  assert (E := scan_ok (p :: c) 0 (fst p) (fst p)). destruct (fold_left _ (p :: c) _) as [[m mx] mn].
  destruct E as (E & [I1 L1] & [I2 L2]). exists mn, mx. split; [|split].
  - split; [destruct I1 as [<-|I1]; [left; reflexivity|auto]|]. intros y Y. apply L1. right. auto.
  - split; [destruct I2 as [<-|I2]; [left; reflexivity|auto]|]. intros y Y. apply L2. right. auto.
  - do 4 f_equal. unfold average, mean_of. rewrite E, map_length. f_equal. lra.
Qed.
Lemma half_range_unique : forall c h h', half_range c h -> half_range c h' -> h = h'.
Proof.
  intros c h h' (x & y & [X1 X2] & [Y1 Y2] & ->) (x' & y' & [X1' X2'] & [Y1' Y2'] & ->).
  specialize (X2 _ X1'). specialize (X2' _ X1). specialize (Y2 _ Y1'). specialize (Y2' _ Y1). lra.
Qed.
Lemma half_range_ge0 : forall c h, half_range c h -> 0 <= h.
Proof. intros c h (x & y & [X1 X2] & [Y1 Y2] & ->). specialize (X2 _ Y1). lra. Qed.
Lemma half_range_stats : forall c a h mn mx, curve_stats c = Ok (a, h, mn, mx) -> c <> [] /\ a = average c /\ half_range c h.
Proof.
  intros c a h mn mx E. destruct c as [|p c]; [discriminate|]. assert (N : p :: c <> []) by discriminate.
  destruct (curve_stats_ok _ N) as (mn' & mx' & L & S & E'). rewrite E' in E. injection E as <- <- <- <-. 
  split; auto. split; auto. exists mx', mn'. auto.
Qed.
Lemma check_curve_ok : forall c flag flag', check_curve c flag = Ok flag' <->
  acceptable c /\ (small_average c /\ flag' = true \/ ~ small_average c /\ flag' = flag).
Proof.
  intros c flag flag'. unfold check_curve. destruct (curve_stats c) as [[[[a h] mn] mx]| | |] eqn:E; cbn [bind].
  - destruct (half_range_stats _ _ _ _ _ E) as (N & -> & H).
    assert (Z : half_range c 0 <-> h = 0). { split; [intros H0; eapply half_range_unique; eauto|intros <-; auto]. }
    assert (SA : small_average c <-> average c < h / 100).
    { split; [intros (h' & H' & L); rewrite (half_range_unique c h h'); auto|]. intros L. exists h. auto. }
    unfold acceptable. rewrite Z, SA. destruct (Rle_dec (average c) 0); [split; [discriminate|]; intros ((_ & ? & _) & _); lra|].
    destruct (Req_EM_T h 0); [split; [discriminate|]; intros ((_ & _ & ?) & _); contradiction|].
    assert (0 < average c) by lra.
    destruct (Rlt_dec (average c) (h / 100)); split; intros Q.
    + injection Q as <-. auto.
    + destruct Q as (_ & [[_ ->]|[? _]]); [auto|contradiction].
    + injection Q as <-. auto.
    + destruct Q as (_ & [[? _]|[_ ->]]); [contradiction|auto].
  - destruct c as [|p c]; [discriminate|]. destruct (curve_stats_ok (p :: c)) as (? & ? & _ & _ & E'); [discriminate|]. congruence.
  - destruct c as [|p c].
    + split; [discriminate|]. intros ((N & _) & _). congruence.
    + destruct (curve_stats_ok (p :: c)) as (? & ? & _ & _ & E'); [discriminate|]. congruence.
  - destruct c as [|p c]; [discriminate|]. destruct (curve_stats_ok (p :: c)) as (? & ? & _ & _ & E'); [discriminate|]. congruence.
Qed.
(** A run of checks over a list of curves. *)
Definition ex_small (cs : list curve) : Prop := exists c, In c cs /\ small_average c.
Lemma bind_ok : forall {A B} (x : outcome A) (f : A -> outcome B) b, bind x f = Ok b <-> exists a, x = Ok a /\ f a = Ok b.
Proof. intros A B [a| | |] f b; cbn [bind]; split; intros H; try discriminate; try (exists a; auto); destruct H as (a' & E & H); congruence. Qed.
Definition flags (cs : list curve) (flag flag' : bool) : Prop :=
  (forall c, In c cs -> acceptable c) /\ (flag' = true <-> flag = true \/ ex_small cs).
Lemma flags_cons : forall c cs flag flag',
  (exists f1, check_curve c flag = Ok f1 /\ flags cs f1 flag') <-> flags (c :: cs) flag flag'.
Proof.
  intros c cs flag flag'. split.
  - intros (f1 & E & H1 & H2). apply check_curve_ok in E. destruct E as (A & E). split.
    + intros x [<-|X]; auto.
    + rewrite H2. split.
      * intros [->|(x & X & S)]; [|right; exists x; split; [right|]; auto]. 
        destruct E as [[S _]|[_ <-]]; [right; exists c; split; [left|]; auto|left; auto].
      * intros [->|(x & [->|X] & S)].
        -- left. destruct E as [[_ ->]|[_ ->]]; auto.
        -- left. destruct E as [[_ ->]|[? _]]; [auto|contradiction].
        -- right. exists x. auto.
  - intros (H1 & H2).
    assert (D : small_average c \/ ~ small_average c).
    { destruct (H1 c (or_introl eq_refl)) as (N & _). destruct (curve_stats_ok c N) as (mn & mx & L & S & _).
      assert (HR : half_range c ((mx - mn) / 2)) by (exists mx, mn; auto).
      destruct (Rlt_dec (average c) ((mx - mn) / 2 / 100)); [left; eexists; eauto|right].
      intros (h & H & Q). rewrite (half_range_unique c h _ H HR) in Q. contradiction. }
    destruct D as [S|S].
    + exists true. split; [apply check_curve_ok; split; [apply H1; left; auto|auto]|]. split; [intros x X; apply H1; right; auto|].
      split; auto. intros _. apply H2. right. exists c. split; [left|]; auto.
    + exists flag. split; [apply check_curve_ok; split; [apply H1; left; auto|auto]|]. split; [intros x X; apply H1; right; auto|].
      rewrite H2. split; (intros [->|(x & X & Q)]; [auto|]).
      * destruct X as [->|X]; [contradiction|]. right. exists x. auto.
      * right. exists x. split; [right|]; auto.
Qed.
Lemma flags_nil : forall flag flag', flags [] flag flag' <-> flag' = flag.
Proof.
  intros. unfold flags, ex_small. split.
  - intros (_ & H). destruct flag, flag'; auto; [apply H; auto|]. destruct (proj1 H eq_refl) as [?|(? & [] & _)]. auto.
  - intros ->. split; [intros ? []|]. split; auto. intros [?|(? & [] & _)]; auto.
Qed.
Definition nonempty (c : curve) : bool := match c with [] => false | _ => true end.
Lemma check_lines_ok : forall ls flag flag', check_lines ls flag = Ok flag' <-> flags (filter nonempty ls) flag flag'.
Proof.
  induction ls as [|[|p l] ls IH]; intros flag flag'; cbn [check_lines filter nonempty].
  - rewrite flags_nil. split; congruence.
  - apply IH.
  - rewrite bind_ok, <- flags_cons. split; intros (f1 & E & H); exists f1; split; auto; apply IH; auto.
Qed.
Lemma flags_app : forall l l' flag flag', (exists f1, flags l flag f1 /\ flags l' f1 flag') <-> flags (l ++ l') flag flag'.
Proof.
  induction l as [|c l IH]; intros l' flag flag'; cbn [app].
  - split; [intros (f1 & E & H); apply flags_nil in E; subst; auto|]. intros H. exists flag. split; auto. apply flags_nil. auto.
  - rewrite <- flags_cons. split.
    + intros (f1 & H & H'). apply flags_cons in H. destruct H as (f0 & E & H). exists f0. split; auto. apply IH. exists f1. auto.
    + intros (f0 & E & H). apply IH in H. destruct H as (f1 & H & H'). exists f1. split; auto. apply flags_cons. exists f0. auto.
Qed.
Definition looked_at (vmap : bool) (s : curve * list curve) : list curve :=
  (if vmap then [] else [fst s]) ++ filter nonempty (snd s).
Lemma first_pass_ok : forall vmap sets flag flag', first_pass vmap sets flag = Ok flag' <-> flags (concat (map (looked_at vmap) sets)) flag flag'.
Proof.
  intros vmap. induction sets as [|[con ls] sets IH]; intros flag flag'; cbn [first_pass map concat].
  - rewrite flags_nil. split; congruence.
  - rewrite bind_ok. rewrite <- flags_app. unfold looked_at at 1. cbn [fst snd]. split.
    + intros (f0 & E0 & H). apply bind_ok in H. destruct H as (f1 & E1 & H). exists f1. split; [|apply IH; auto].
      apply flags_app. exists f0. split; [|apply check_lines_ok; auto]. destruct vmap; [apply flags_nil; congruence|].
      apply flags_cons. exists f0. split; auto. apply flags_nil. auto.
    + intros (f1 & H & H'). apply flags_app in H. destruct H as (f0 & H0 & H1). exists f0. split.
      * destruct vmap; [apply flags_nil in H0; congruence|]. apply flags_cons in H0. destruct H0 as (f & E & H0). apply flags_nil in H0. congruence.
      * apply bind_ok. exists f1. split; [apply check_lines_ok; auto|apply IH; auto].
Qed.
Lemma looked_at_measured : forall vmap sets c, In c (concat (map (looked_at vmap) sets)) <-> measured vmap sets c.
Proof.
  intros vmap sets c. rewrite in_concat. unfold measured. split.
  - intros (l & L & C). apply in_map_iff in L. destruct L as ([con ls] & <- & S). exists con, ls. split; auto.
    unfold looked_at in C. cbn [fst snd] in C. apply in_app_or in C. destruct C as [C|C].
    + destruct vmap; [destruct C|]. destruct C as [<-|[]]. auto.
    + apply filter_In in C. right. destruct C as (C & N). split; auto. intros ->. discriminate.
  - intros (con & ls & S & C). exists (looked_at vmap (con, ls)). split; [apply in_map; auto|]. unfold looked_at. cbn [fst snd].
    apply in_or_app. destruct C as [[-> ->]|[C N]]; [left; left; auto|right; apply filter_In; split; auto; destruct c; [congruence|reflexivity]].
Qed.

Section Second.
Variables (vmap uniform flag : bool).
Lemma scale_curve_ok : forall c, acceptable c -> exists n, scale_curve uniform flag c = Ok n /\ normalised uniform flag c n.
Proof.
  intros c (N & A & H). destruct (curve_stats_ok c N) as (mn & mx & L & S & E). unfold scale_curve. rewrite E. cbn [bind].
  eexists. split; [reflexivity|]. assert (HR : half_range c ((mx - mn) / 2)) by (exists mx, mn; auto).
  assert (P : 0 < (if uniform then 1 else if flag then (mx - mn) / 2 else average c)).
  { destruct uniform; [lra|]. destruct flag; [|auto]. assert (Q := half_range_ge0 _ _ HR). destruct (Req_dec ((mx - mn) / 2) 0) as [Z|Z]; [rewrite Z in HR; contradiction|lra]. }
  split; [exact P|]. cbn [nscale_ npts]. split; [unfold factor; destruct uniform; auto; destruct flag; auto|].
  split; [apply map_length|]. intros k f e K. rewrite nth_error_map, K. cbn [option_map fst snd].
  eexists. eexists. split; [reflexivity|]. split; field; lra.
Qed.
Lemma normalised_inv : forall c n, scale_curve uniform flag c = Ok n -> acceptable c -> normalised uniform flag c n.
Proof. intros c n E A. destruct (scale_curve_ok c A) as (n' & E' & H). congruence. Qed.
(** Rows of the file for the lines of set [i]. *)
Definition row_spec (i j : nat) (ls : list curve) (ns : list ncurve) (x : norm_row) : Prop :=
  exists k c n, nth_error ls k = Some c /\ nth_error ns k = Some n /\ c <> [] /\ x = (i, S (j + k), Some (nscale_ n)).
Lemma scale_lines_ok : forall ls i j var, (forall c, In c ls -> c <> [] -> acceptable c) ->
  exists ns rows var', scale_lines uniform flag i j ls var = Ok (ns, rows, var') /\ Forall2 (line_normalised uniform flag) ls ns /\
    forall x, In x rows <-> row_spec i j ls ns x.
Proof.
  induction ls as [|l ls IH]; intros i j var H.
  - exists [], [], var. split; [reflexivity|]. split; [constructor|]. intros x. split; [intros []|intros (k & c & n & K & _)]. destruct k; discriminate.
  - assert (H' : forall c, In c ls -> c <> [] -> acceptable c) by (intros c C; apply H; right; auto).
    destruct l as [|p l].
    + destruct (IH i (S j) var H') as (ns & rows & var' & E & F & RS). cbn [scale_lines]. rewrite E. cbn [bind].
      eexists _, _, _. split; [reflexivity|]. split; [constructor; [split; reflexivity|auto]|]. intros x. rewrite RS. split.
      * intros (k & c & n & K1 & K2 & N & ->). exists (S k), c, n. cbn [nth_error]. repeat (split; auto). do 3 f_equal. lia.
      * intros (k & c & n & K1 & K2 & N & ->). destruct k as [|k]; cbn [nth_error] in K1; [congruence|]. exists k, c, n. repeat (split; auto). do 3 f_equal. lia.
    + assert (A : acceptable (p :: l)) by (apply H; [left; auto|discriminate]).
      destruct (scale_curve_ok _ A) as (n & E1 & N1). change (scale_lines uniform flag i j ((p :: l) :: ls) var) with
        (c <- scale_curve uniform flag (p :: l) ;; x <- scale_lines uniform flag i (S j) ls (Some (nscale_ c)) ;;
         let '(cs, rows, var') := x in Ok (c :: cs, (i, S j, Some (nscale_ c)) :: rows, var')). rewrite E1. cbn [bind].
      destruct (IH i (S j) (Some (nscale_ n)) H') as (ns & rows & var' & E & F & RS). rewrite E. cbn [bind].
      eexists _, _, _. split; [reflexivity|]. split; [constructor; auto|]. intros x. cbn [In]. rewrite RS. split.
      * intros [<-|(k & c & n' & K1 & K2 & N & ->)].
        -- exists 0%nat, (p :: l), n. cbn [nth_error]. repeat (split; auto); [discriminate|]. do 3 f_equal. lia.
        -- exists (S k), c, n'. cbn [nth_error]. repeat (split; auto). do 3 f_equal. lia.
      * intros (k & c & n' & K1 & K2 & N & ->). destruct k as [|k]; cbn [nth_error] in K1, K2.
        -- left. injection K2 as <-. do 3 f_equal. lia.
        -- right. exists k, c, n'. repeat (split; auto). do 3 f_equal. lia.
Qed.
Definition set_normalised (s : curve * list curve) (ns : list ncurve) : Prop :=
  exists n0 nl, ns = n0 :: nl /\ con_normalised vmap uniform flag (fst s) n0 /\ Forall2 (line_normalised uniform flag) (snd s) nl.
Lemma second_pass_ok : forall sets i var, (forall c, measured vmap sets c -> acceptable c) ->
  exists out rows, second_pass vmap uniform flag i sets var = Ok (out, rows) /\ Forall2 set_normalised sets out /\
    (vmap = false -> forall x, In x rows <-> exists m con ls n0 nl, nth_error sets m = Some (con, ls) /\ nth_error out m = Some (n0 :: nl) /\
       (x = ((i + m)%nat, 0%nat, Some (nscale_ n0)) \/ row_spec (i + m) 0 ls nl x)).
Proof.
  induction sets as [|[con ls] sets IH]; intros i var H.
  - exists [], []. split; [reflexivity|]. split; [constructor|]. intros _ x. split; [intros []|intros (m & ? & ? & ? & ? & M & _)]. destruct m; discriminate.
  - assert (HC : vmap = false -> acceptable con) by (intros V; apply H; exists con, ls; split; [left; auto|left; auto]).
    assert (HL : forall c, In c ls -> c <> [] -> acceptable c) by (intros c C N; apply H; exists con, ls; split; [left; auto|right; auto]).
    assert (HS : forall c, measured vmap sets c -> acceptable c) by (intros c (con' & ls' & S & C); apply H; exists con', ls'; split; [right|]; auto).
    assert (C0 : exists n0 v0, (if vmap then Ok (NCurve 1 con None, var) else c <- scale_curve uniform flag con ;; Ok (c, Some (nscale_ c))) = Ok (n0, v0) /\
       con_normalised vmap uniform flag con n0 /\ (vmap = false -> v0 = Some (nscale_ n0))).
    { destruct vmap.
      - exists (NCurve 1 con None), var. split; auto. split; [split; reflexivity|discriminate].
      - destruct (scale_curve_ok con (HC eq_refl)) as (n & E & N). rewrite E. cbn [bind]. exists n, (Some (nscale_ n)). auto. }
    destruct C0 as (n0 & v0 & E0 & N0 & V0). cbn [second_pass]. rewrite E0. cbn [bind snd fst].
    destruct (scale_lines_ok ls i 0 v0 HL) as (nl & rows & var' & E1 & F1 & R1). rewrite E1. cbn [bind].
    destruct (IH (S i) var' HS) as (out & rows' & E2 & F2 & R2). rewrite E2. cbn [bind fst snd].
    eexists _, _. split; [reflexivity|]. split; [constructor; auto; exists n0, nl; auto|].
    intros V x. cbn [In]. rewrite in_app_iff, R1, (R2 V x), (V0 V). split.
    + intros [<-|[R|(m & c & l & n & nn & M1 & M2 & R)]].
      * exists 0%nat, con, ls, n0, nl. cbn [nth_error]. rewrite Nat.add_0_r. auto.
      * exists 0%nat, con, ls, n0, nl. cbn [nth_error]. rewrite Nat.add_0_r. auto.
      * exists (S m), c, l, n, nn. cbn [nth_error]. replace (i + S m)%nat with (S i + m)%nat by lia. auto.
    + intros (m & c & l & n & nn & M1 & M2 & R). destruct m as [|m]; cbn [nth_error] in M1, M2.
      * injection M1 as <- <-. injection M2 as <- <-. rewrite Nat.add_0_r in R. destruct R as [->|R]; auto.
      * right. right. exists m, c, l, n, nn. replace (S i + m)%nat with (i + S m)%nat by lia. auto.
Qed.
End Second.

(** Which data pass. *)
Theorem C47_accepted : forall vmap uniform sets,
  (exists out rows, scale_con_line vmap uniform sets = Ok (out, rows)) <-> (forall c, measured vmap sets c -> acceptable c).
Proof.
  intros vmap uniform sets. unfold scale_con_line. split.
  - intros (out & rows & E). apply bind_ok in E. destruct E as (f & E & _). apply first_pass_ok in E. destruct E as (H & _).
    intros c C. apply H. apply looked_at_measured. auto.
  - intros H. 
    assert (F : exists f, first_pass vmap sets false = Ok f).
    { assert (H' : forall c, In c (concat (map (looked_at vmap) sets)) -> acceptable c) by (intros c C; apply H, looked_at_measured; auto).
      assert (G : forall l flag, (forall c, In c l -> acceptable c) -> exists f, flags l flag f).
      { clear. induction l as [|c l IH]; intros flag H; [exists flag; apply flags_nil; auto|].
        assert (A := H c (or_introl eq_refl)). destruct (check_curve c flag) as [f| | |] eqn:E.
        - destruct (IH f) as (f' & F); [intros; apply H; right; auto|]. exists f'. apply flags_cons. exists f. auto.
        - exfalso. destruct A as (N & P & Z). destruct (curve_stats_ok c N) as (mn & mx & L & S & E'). unfold check_curve in E. rewrite E' in E. cbn [bind] in E.
          destruct (Rle_dec (average c) 0); [lra|]. destruct (Req_EM_T ((mx - mn) / 2) 0) as [Q|Q]; [apply Z; exists mx, mn; auto|]. destruct (Rlt_dec _ _); discriminate.
        - exfalso. destruct A as (N & P & Z). destruct (curve_stats_ok c N) as (mn & mx & L & S & E'). unfold check_curve in E. rewrite E' in E. cbn [bind] in E.
          destruct (Rle_dec (average c) 0); [discriminate|]. destruct (Req_EM_T _ _); [discriminate|]. destruct (Rlt_dec _ _); discriminate.
        - exfalso. destruct A as (N & P & Z). destruct (curve_stats_ok c N) as (mn & mx & L & S & E'). unfold check_curve in E. rewrite E' in E. cbn [bind] in E.
          destruct (Rle_dec (average c) 0); [discriminate|]. destruct (Req_EM_T _ _); [discriminate|]. destruct (Rlt_dec _ _); discriminate. }
      destruct (G _ false H') as (f & F). exists f. apply first_pass_ok. auto. }
    destruct F as (f & F). rewrite F. cbn [bind]. destruct (second_pass_ok vmap uniform f sets 0 None H) as (out & rows & E & _). eauto.
Qed.
(** Every factor is positive, multiplying by it gives the input back, and the factors
    are all 1, or all the average fluxes, or all the half ranges. *)
Theorem C47_factors : forall vmap uniform sets out rows, scale_con_line vmap uniform sets = Ok (out, rows) ->
  exists use_range : bool, (use_range = true <-> exists c, measured vmap sets c /\ small_average c) /\
    Forall2 (fun s ns => exists n0 nl, ns = n0 :: nl /\ con_normalised vmap uniform use_range (fst s) n0 /\
                         Forall2 (line_normalised uniform use_range) (snd s) nl) sets out.
Proof.
  intros vmap uniform sets out rows E.
  assert (A := proj1 (C47_accepted vmap uniform sets) (ex_intro _ out (ex_intro _ rows E))).
  unfold scale_con_line in E. apply bind_ok in E. destruct E as (f & E & E'). exists f. split.
  - apply first_pass_ok in E. destruct E as (_ & ->). unfold ex_small. split.
    + intros [?|(c & C & S)]; [discriminate|]. exists c. split; auto. apply looked_at_measured. auto.
    + intros (c & C & S). right. exists c. split; auto. apply looked_at_measured. auto.
  - destruct (second_pass_ok vmap uniform f sets 0 None A) as (out' & rows' & E2 & F & _). rewrite E2 in E'. injection E' as <- <-. exact F.
Qed.
(** Outside velocity-map mode normalization.txt lists exactly the factors of the
    continuum and of the lines that have data. *)
Theorem C47_file : forall uniform sets out rows, scale_con_line false uniform sets = Ok (out, rows) ->
  forall i j v, In (i, j, v) rows <->
    exists con ls ns n, nth_error sets i = Some (con, ls) /\ nth_error out i = Some ns /\ nth_error ns j = Some n /\ v = Some (nscale_ n) /\
      (j = 0%nat \/ exists c, nth_error ls (j - 1) = Some c /\ c <> []).
Proof.
  intros uniform sets out rows E i j v.
  assert (A := proj1 (C47_accepted false uniform sets) (ex_intro _ out (ex_intro _ rows E))).
  unfold scale_con_line in E. apply bind_ok in E. destruct E as (f & E & E').
  destruct (second_pass_ok false uniform f sets 0 None A) as (out' & rows' & E2 & F & R). rewrite E2 in E'. injection E' as <- <-.
  rewrite (R eq_refl). split.
  - intros (m & con & ls & n0 & nl & M1 & M2 & [Q|(k & c & n & K1 & K2 & N & Q)]); cbn [Nat.add] in Q; injection Q as -> -> ->.
    + exists con, ls, (n0 :: nl), n0. repeat (split; auto).
    + exists con, ls, (n0 :: nl), n. repeat (split; auto). right. exists c. cbn [Nat.sub]. rewrite Nat.sub_0_r. auto.
  - intros (con & ls & ns & n & M1 & M2 & J & -> & Q).
    assert (L : exists n0 nl, ns = n0 :: nl).
    { clear - F M1 M2. revert i M1 M2. induction F as [|s ns' sets' out' (n0 & nl & -> & _) F IH]; intros [|i] M1 M2; cbn [nth_error] in *; try discriminate.
      - injection M2 as <-. eauto.
      - eauto. }
    destruct L as (n0 & nl & ->). exists i, con, ls, n0, nl. split; auto. split; auto. cbn [Nat.add]. destruct Q as [->|(c & C & N)].
    + cbn [nth_error] in J. injection J as ->. auto.
    + destruct j as [|j]; cbn [nth_error] in J.
      * injection J as ->. auto.
      * cbn [Nat.sub] in C. rewrite Nat.sub_0_r in C. right. exists j, c, n. repeat (split; auto).
Qed.
(** In velocity-map mode the factor of the continuum is 1, but the row written for it
    holds the variable [scale]: uninitialised in the first set, the factor of another
    curve in later sets. *)
Theorem C47_vmap_rows_uninitialised_refuted : forall uniform s sets out rows, scale_con_line true uniform (s :: sets) = Ok (out, rows) ->
  (exists n0 nl rest, out = (n0 :: nl) :: rest /\ nscale_ n0 = 1) /\ In (0%nat, 0%nat, None) rows.
Proof.
  intros uniform [con ls] sets out rows E. unfold scale_con_line in E. apply bind_ok in E. destruct E as (f & _ & E).
  cbn [second_pass bind fst snd] in E. apply bind_ok in E. destruct E as ([[cs rs] v] & _ & E). apply bind_ok in E. destruct E as (y & _ & E).
  injection E as <- <-. split; [eexists _, _, _; split; [reflexivity|reflexivity]|left; reflexivity].
Qed.
Theorem C47_vmap_rows_refuted : exists sets out rows n0 nl v, scale_con_line true false sets = Ok (out, rows) /\
  nth_error out 1 = Some (n0 :: nl) /\ nscale_ n0 = 1 /\ In (1%nat, 0%nat, Some v) rows /\ v <> 1.
Proof.
  set (s := (@nil (R * R), [[(1, 1); (3, 1)]])).
  assert (St : curve_stats [(1, 1); (3, 1)] = Ok (2, 1, 1, 3)).
  { unfold curve_stats, get. cbn [nth_error bind]. unfold scan. cbn [fold_left fst length].
    destruct (Rlt_dec 1 1); [lra|]. destruct (Rlt_dec 1 3); [|lra]. destruct (Rlt_dec 3 1); [lra|].
    do 2 f_equal. do 2 f_equal. f_equal; cbn [INR]; lra. lra. }
  assert (Fp : first_pass true [s; s] false = Ok false).
  { unfold s. cbn [first_pass bind check_lines]. unfold check_curve. rewrite St. cbn [bind].
    destruct (Rle_dec 2 0); [lra|]. destruct (Req_EM_T 1 0); [lra|]. destruct (Rlt_dec 2 (1 / 100)); [lra|]. cbn [bind]. try rewrite St. cbn [bind].
    destruct (Rle_dec 2 0); [lra|]. destruct (Req_EM_T 1 0); [lra|]. destruct (Rlt_dec 2 (1 / 100)); [lra|]. reflexivity. }
  exists [s; s]. unfold scale_con_line. rewrite Fp. cbn [bind]. unfold s. cbn [second_pass bind snd fst scale_lines]. unfold scale_curve. rewrite St. cbn [bind nscale_].
  eexists _, _, _, _, _. split; [reflexivity|]. split; [reflexivity|]. split; [reflexivity|]. split; [right; right; left; reflexivity|]. lra.
Qed.
(** A set with a continuum (2, 4) and two lines, one empty. *)
Example C47_case : 
  let c := [(2, 1); (4, 1)] in
  exists out rows, scale_con_line false false [(c, [c; []])] = Ok (out, rows) /\ In (0%nat, 0%nat, Some 3) rows /\ In (0%nat, 1%nat, Some 3) rows.
Proof.
  intros c.
  assert (St : curve_stats c = Ok (3, 1, 2, 4)).
  { unfold curve_stats, get, c. cbn [nth_error bind]. unfold scan. cbn [fold_left fst length].
    destruct (Rlt_dec 2 2); [lra|]. destruct (Rlt_dec 2 4); [|lra]. destruct (Rlt_dec 4 2); [lra|].
    do 2 f_equal. do 2 f_equal. f_equal; cbn [INR]; lra. lra. }
  assert (Fp : first_pass false [(c, [c; []])] false = Ok false).
  { cbn [first_pass bind]. unfold c at 2. cbn [check_lines]. fold c. unfold check_curve. rewrite St. cbn [bind].
    destruct (Rle_dec 3 0); [lra|]. destruct (Req_EM_T 1 0); [lra|]. destruct (Rlt_dec 3 (1 / 100)); [lra|]. cbn [bind]. change [(2, 1); (4, 1)] with c. try rewrite St. cbn [bind].
    destruct (Rle_dec 3 0); [lra|]. destruct (Req_EM_T 1 0); [lra|]. destruct (Rlt_dec 3 (1 / 100)); [lra|]. reflexivity. }
  unfold scale_con_line. rewrite Fp. cbn [bind]. unfold c. cbn [second_pass bind snd fst scale_lines]. fold c. unfold scale_curve. change [(2, 1); (4, 1)] with c. rewrite St. cbn [bind nscale_ fst snd].
  eexists _, _. split; [reflexivity|]. split; [left; reflexivity|right; left; reflexivity].
Qed.
Print Assumptions C47_accepted. Print Assumptions C47_factors. Print Assumptions C47_file.
Print Assumptions C47_vmap_rows_uninitialised_refuted. Print Assumptions C47_vmap_rows_refuted.

(** What is written is in the units of the input: it is the mean and the spread of
    the reconstructed values multiplied by the factor of the curve, and the errors
    multiplied by the factor. *)
Lemma mean_scale : forall c l, mean_of (map (fun x => x * c) l) = mean_of l * c.
Proof.
  intros c l. unfold mean_of. rewrite map_length. replace (Rsum (map (fun x => x * c) l)) with (Rsum l * c); [unfold Rdiv; ring|].
  unfold Rsum. induction l as [|x l IH]; cbn [map fold_right]; [ring|]. rewrite <- IH. ring.
Qed.
Lemma variance_scale : forall c l, variance_of (map (fun x => x * c) l) = variance_of l * (c * c).
Proof.
  intros c l. unfold variance_of. rewrite mean_scale, map_length. generalize (mean_of l) as m. intros m. rewrite map_map.
  replace (Rsum (map (fun x => (x * c - m * c) ^ 2) l)) with (Rsum (map (fun x => (x - m) ^ 2) l) * (c * c)); [unfold Rdiv; ring|].
  unfold Rsum. induction l as [|x l IH]; cbn [map fold_right]; [ring|]. rewrite <- IH. ring.
Qed.
Lemma largest_scale : forall c l, 0 <= c -> largest (map (fun x => x * c) l) = largest l * c.
Proof.
  intros c l C. unfold largest. induction l as [|x l IH]; cbn [map fold_right]; [ring|]. rewrite IH.
  rewrite (Rmult_comm x), (Rmult_comm (fold_right Rmax 0 l)), (Rmult_comm (Rmax _ _)). apply RmaxRmult; auto.
Qed.
Theorem C47_output : forall junk num_ps np T order nall nq scale rec all j n c k,
  (1 <= T)%nat -> (1 <= num_ps)%nat -> length all = (num_ps * np)%nat -> Permutation order (seq 0 T) -> length nall = length scale ->
  nth_error nall j = Some n -> nth_error scale j = Some c -> 0 < c -> (k < n)%nat ->
  exists curves trend cur, reconstruction Rarith junk num_ps np T order nall nq scale rec all = Ok (curves, trend) /\
    nth_error curves j = Some cur /\
    let i := (fold_right Nat.add 0 (firstn j nall) + k)%nat in
    let values := map (fun x => x * c) (column rf rec num_ps np all i) in
    let errors := map (fun x => x * c) (column rfe rec num_ps np all i) in
    nth_error cur k = Some (mean_of values, Rmax (sqrt (variance_of values)) (largest errors)).
Proof.
  intros junk num_ps np T order nall nq scale rec all j n c k HT HN HL HO LS N C P K.
  destruct (C48_result junk num_ps np T order nall nq scale rec all HT HN HL HO LS) as (cs & t & E & _ & _ & S).
  destruct (S j n c N C) as (_ & S2 & _). destruct (S2 k K) as (cur & E1 & E2). exists cs, t, cur. split; auto. split; auto.
  cbn zeta in *. rewrite E2. rewrite mean_scale, variance_scale, largest_scale by lra.
  rewrite sqrt_mult_alt by apply variance_ge0. rewrite sqrt_square by lra. do 2 f_equal.
  rewrite (Rmult_comm (Rmax _ _)), (Rmult_comm (sqrt _)), (Rmult_comm (largest _)). symmetry. apply RmaxRmult. lra.
Qed.
Example C47_output_case :
  let rec := fun r => Recon (fun _ => hd 0 r) (fun _ => 1 / 2) (fun _ => 2 * hd 0 r) in
  exists curves trend cur e, reconstruction Rarith 7 3 1 2 [1%nat; 0%nat] [1%nat] 1 [10] rec [1; 2; 6] = Ok (curves, trend) /\
    nth_error curves 0 = Some cur /\ nth_error cur 0 = Some (30, e).
Proof. intros rec. unfold rec. rewrite C48_case. eexists _, _, _, _. split; [reflexivity|]. split; reflexivity. Qed.
Print Assumptions C47_output.

(** ** C59.  Times of reconstruction. *)
Definition in_order (t : list R) : Prop := forall a b x y, (a < b)%nat -> nth_error t a = Some x -> nth_error t b = Some y -> x <= y.
Lemma first_le : forall t x, in_order t -> t <> [] -> In x t -> exists b e, get t 0 = Ok b /\ last_ t = Ok e /\ b <= x <= e.
Proof.
  intros t x O N I. destruct t as [|b t]; [congruence|]. exists b. unfold get. cbn [nth_error]. unfold last_, get. cbn [length]. rewrite Nat.sub_succ, Nat.sub_0_r.
  destruct (nth_error (b :: t) (length t)) as [e|] eqn:E; [|apply nth_error_None in E; cbn [length] in E; lia].
  exists e. split; auto. split; auto. apply In_nth_error in I. destruct I as (k & K).
  assert (L : (k < S (length t))%nat) by (change (S (length t)) with (length (b :: t)); apply nth_error_Some; congruence). split.
  - destruct k as [|k]; [cbn in K; injection K as ->; lra|]. apply (O 0%nat (S k)); [lia|reflexivity|auto].
  - destruct (Nat.eq_dec k (length t)) as [->|Q]; [rewrite E in K; injection K as ->; lra|]. apply (O k (length t)); [lia|auto|auto].
Qed.
Lemma span_ok : forall lines b e, (forall l, In l lines -> in_order l /\ l <> []) ->
  exists b' e', rec_span lines b e = Ok (b', e') /\ b' <= b /\ e <= e' /\ forall l x, In l lines -> In x l -> b' <= x <= e'.
Proof.
  induction lines as [|l lines IH]; intros b e H; cbn [rec_span].
  - exists b, e. split; auto. split; [lra|]. split; [lra|]. intros l x [].
  - destruct (H l (or_introl eq_refl)) as (O & N). destruct l as [|x0 l1] eqn:EL; [congruence|]. rewrite <- EL in *. clear N. assert (N : l <> []) by (rewrite EL; discriminate).
    destruct (first_le l x0 O N) as (lb & le & E1 & E2 & _); [rewrite EL; left; auto|]. rewrite E1. cbn [bind]. rewrite E2. cbn [bind].
    destruct (IH (Rmin b lb) (Rmax e le)) as (b' & e' & E & B & E' & C); [intros; apply H; right; auto|].
    exists b', e'. split; auto. assert (M1 := Rmin_l b lb). assert (M2 := Rmin_r b lb). assert (M3 := Rmax_l e le). assert (M4 := Rmax_r e le).
    split; [lra|]. split; [lra|]. intros l' x [<-|L] X; [|eauto].
    destruct (first_le l x O N X) as (lb' & le' & Q1 & Q2 & Q3). rewrite Q1 in E1. rewrite Q2 in E2. injection E1 as ->. injection E2 as ->. lra.
Qed.
(** Times in order, repeated ones allowed: every curve of the set has the same grid, of
    min(3 n, nd_rec) points, equally spaced, and it reaches beyond all the data of the
    set, each end moved as the user wishes, unless that leaves no time in between. *)
Theorem C59_grid : forall con lines nd_rec low_ext upp_ext,
  in_order con -> con <> [] -> (forall l, In l lines -> in_order l /\ l <> []) -> (2 <= nd_rec)%nat ->
  (exists x y, In x (concat (con :: lines)) /\ In y (concat (con :: lines)) /\ x + low_ext < y + upp_ext) ->
  exists first step n, rec_times con lines nd_rec low_ext upp_ext = Ok (repeat (map (fun k => Some (first + INR k * step)) (seq 0 n)) (1 + length lines)) /\
    n = Nat.min (3 * length con) nd_rec /\ 0 < step /\
    forall l x, In l (con :: lines) -> In x l -> first < x + low_ext /\ x + upp_ext < first + INR (n - 1) * step.
Proof.
  intros con lines nd_rec low_ext upp_ext O N H ND (x1 & y1 & X1 & Y1 & XY).
  destruct con as [|x0 con1] eqn:EC; [congruence|]. rewrite <- EC in *. assert (L : (1 <= length con)%nat) by (rewrite EC; cbn [length]; lia).
  destruct (first_le con x0 O N) as (b & e & E1 & E2 & _); [rewrite EC; left; auto|].
  destruct (span_ok lines b e H) as (b' & e' & E3 & B & E & C). unfold rec_times. rewrite E1. cbn [bind]. rewrite E2. cbn [bind]. rewrite E3. cbn [bind fst snd].
  assert (R : forall l x, In l (con :: lines) -> In x l -> b' <= x <= e').
  { intros l x [<-|L'] X; [|eauto]. destruct (first_le con x O N X) as (b1 & e1 & Q1 & Q2 & Q3). rewrite Q1 in E1. rewrite Q2 in E2. injection E1 as ->. injection E2 as ->. lra. }
  assert (BE : b' + low_ext < e' + upp_ext).
  { apply in_concat in X1. destruct X1 as (l1 & P1 & P2). apply in_concat in Y1. destruct Y1 as (l2 & P3 & P4).
    pose proof (R l1 x1 P1 P2). pose proof (R l2 y1 P3 P4). lra. }
  set (n := rec_count (length con) nd_rec). assert (N2 : (2 <= n)%nat) by (unfold n, rec_count; lia).
  assert (IN : 2 <= INR n) by (apply le_INR in N2; cbn [INR] in N2; lra).
  set (tb := b' + low_ext). set (te := e' + upp_ext). assert (TBE : tb < te) by (unfold tb, te; lra).
  exists (tb - 5 / 100 * (te - tb)), ((te + 5 / 100 * (te - tb) - (tb - 5 / 100 * (te - tb))) / (INR n - 1)), n.
  split; [|split; [|split]].
  - do 2 f_equal. apply map_ext. intros k. destruct (Nat.eqb_spec n 1); [lia|]. f_equal. ring.
  - unfold n, rec_count. f_equal. lia.
  - apply Rmult_lt_0_compat; [lra|]. apply Rinv_0_lt_compat. lra.
  - intros l' x L' X. specialize (R l' x L' X).
    split; [unfold tb; unfold tb in TBE; lra|].
    rewrite minus_INR by lia. cbn [INR]. replace ((INR n - 1) * ((te + 5 / 100 * (te - tb) - (tb - 5 / 100 * (te - tb))) / (INR n - 1))) with (te + 5 / 100 * (te - tb) - (tb - 5 / 100 * (te - tb))) by (field; lra).
    unfold te in *. lra.
Qed.
Example C59_grid_case : rec_times [0; 10] [[5; 20]] 200 0 0 =
  Ok (repeat (map (fun k => Some (-1 + INR k * (22 / 5))) (seq 0 6)) 2).
Proof.
  unfold rec_times, get, last_, get. cbn [nth_error bind length Nat.sub rec_span]. unfold last_, get. cbn [nth_error bind length Nat.sub fst snd].
  rewrite Rmin_left, Rmax_right by lra. cbn [rec_count Nat.mul Nat.add]. change (rec_count 2 200) with 6%nat. do 2 f_equal. apply map_ext. intros k. cbn [Nat.eqb]. f_equal. cbn [INR]. field.
Qed.
(** A line without data makes the routine read t[-1]; a single point gives NaN; zero
    points are accepted by the parameter check (src/read.c:436). *)
Theorem C59_empty_line_refuted : forall con ls ls' nd_rec low_ext upp_ext, (1 <= length con)%nat -> (forall l, In l ls -> l <> []) ->
  rec_times con (ls ++ [] :: ls') nd_rec low_ext upp_ext = UB.
Proof.
  intros con ls ls' nd_rec low_ext upp_ext L H. destruct con as [|b con]; [cbn in L; lia|]. unfold rec_times. unfold get at 1. cbn [nth_error bind].
  unfold last_ at 1. unfold get. destruct (nth_error (b :: con) (length (b :: con) - 1)) as [e|] eqn:E; [|apply nth_error_None in E; cbn [length] in E; lia].
  cbn [bind]. assert (G : forall b e, rec_span (ls ++ [] :: ls') b e = UB).
  { clear - H. induction ls as [|l ls IH]; intros b e; [reflexivity|]. assert (N := H l (or_introl eq_refl)). destruct l as [|x l]; [congruence|].
    cbn [app rec_span]. unfold get at 1. cbn [nth_error bind]. unfold last_, get.
    destruct (nth_error (x :: l) (length (x :: l) - 1)) as [e'|] eqn:E; [|apply nth_error_None in E; cbn [length] in E; lia]. cbn [bind]. apply IH. intros; apply H; right; auto. }
  rewrite G. reflexivity.
Qed.
Theorem C59_one_point_refuted : rec_times [0; 10] [[5; 20]] 1 0 0 = Ok [[None]; [None]].
Proof. reflexivity. Qed.
Print Assumptions C59_grid. Print Assumptions C59_empty_line_refuted. Print Assumptions C59_one_point_refuted.
