(** Property C94: the table of parameters is in the order of the parameter
    vector, with names and types, and can be loaded as a prior file. *)
From Coq Require Import ZArith Reals Lra String List Bool Lia Ascii.
From Flocq Require Import Core BinarySingleNaN.
From Verif Require Import CPrelude ListLemmas TagModel TagSpec TagProofs ScanModel ScanProofs ScanProofs2 ScanProofs3 TextModel TextProofs TextReal TextSci SampTextModel PropSampText LevTextModel LevTextProofs PropLevText TabModel.
From Verif Require PropScan.
Import ListNotations.
Open Scope nat_scope.

(** ** What the parameters are *)
(** Three parameters of the variability. *)
Definition drw_labels : list (string * string) := [("sys_err_con", "LOGUNI"); ("sigmad", "LOG"); ("taud", "LOG")]%string.
(** Three parameters of component k of a line: the amplitude is logarithmic
    unless negative responses are allowed; the photometric mode has the ratio to
    the first component. *)
Definition comp_labels (m : tmode) (k : nat) : list (string * string) :=
  [(match m with Tpmap => if Nat.eqb k 0 then "amplitude" else "resp_ratio" | _ => "amplitude" end,
    match m with Tline neg => if Z.eqb neg 0 then "LOG" else "UNI" | _ => "LOG" end);
   ("centroid", "UNI"); ("sigma", "LOG")]%string.
Definition str (s : string) : list ascii := list_ascii_of_string s.
(** Parameter i of a vector with [nv] blocks of variability parameters, then one
    block for every line, each with an error and g components. *)
Inductive labelled (m : tmode) (g nv : nat) : nat -> list ascii -> list ascii -> Prop :=
| L_drw : forall s q name type, s < nv -> nth_error drw_labels q = Some (name, type) -> labelled m g nv (3 * s + q) (str name) (str type)
| L_err : forall l, labelled m g nv (3 * nv + l * (1 + 3 * g)) (str "sys_err_line") (str "LOGUNI")
| L_comp : forall l k q name type, k < g -> nth_error (comp_labels m k) q = Some (name, type) ->
    labelled m g nv (3 * nv + l * (1 + 3 * g) + 1 + 3 * k + q) (print_d (Z.of_nat k) ++ str "-th_component_" ++ str name) (str type).

(** Numbers of blocks: one or one per set; the largest number of lines or all
    lines. *)
Definition blocks_var (uniform : bool) (nset : nat) : nat := if uniform then 1 else nset.
Definition blocks_line (uniform : bool) (nlset : list nat) : nat := if uniform then list_max nlset else list_sum nlset.

(** The parameters are finite and the limits are not astronomically large. *)
Definition ok_tab (n : nat) (st : @pstate b64) : Prop :=
  wf_state (Z.of_nat n) st /\ (Z.of_nat n < 2 ^ 31)%Z /\
  forall i a b f v, par st i = Some ((a, b), f, v) ->
    finite a /\ finite b /\ finite v /\ (Rabs (B2R a) <= 10 ^ 60)%R /\ (Rabs (B2R b) <= 10 ^ 60)%R /\ (0 <= f < 2 ^ 31)%Z.

(** ** The table as a list of rows *)
Definition label : Type := (list ascii * list ascii)%type.
Definition labs (m : tmode) (g nv nl : nat) : list label :=
  flat_map (fun _ => [(chars "sys_err_con", LOGUNI); (chars "sigmad", LOG); (chars "taud", LOG)]) (seq 0 nv) ++
  flat_map (fun _ => (chars "sys_err_line", LOGUNI) ::
    flat_map (fun k => [(comp_name k (match m with Tpmap => if Nat.eqb k 0 then "amplitude" else "resp_ratio" | _ => "amplitude" end),
                         match m with Tline neg => if Z.eqb neg 0 then LOG else UNI | _ => LOG end);
                        (comp_name k "centroid", UNI); (comp_name k "sigma", LOG)]) (seq 0 g)) (seq 0 nl).
Definition step (st : @pstate b64) (s : Z * list ascii) (l : label) : outcome (Z * list ascii) := next st (fst l) (snd l) s.
Lemma foldM_app : forall A B (f : B -> A -> outcome B) a c b, foldM f (a ++ c) b = bind (foldM f a b) (foldM f c).
Proof. induction a as [|x a IH]; intros c b; [reflexivity|]. cbn [app foldM]. destruct (f b x); cbn [bind]; auto. Qed.
Lemma foldM_flat : forall A B C (f : B -> C -> outcome B) (h : A -> list C) l b, foldM f (flat_map h l) b = foldM (fun b a => foldM f (h a) b) l b.
Proof. induction l as [|x l IH]; intros b; [reflexivity|]. cbn [flat_map foldM]. rewrite foldM_app. destruct (foldM f (h x) b); cbn [bind]; auto. Qed.
Lemma foldM_ext : forall A B (f h : B -> A -> outcome B), (forall b a, f b a = h b a) -> forall l b, foldM f l b = foldM h l b.
Proof. intros A B f h E. induction l as [|x l IH]; intros b; [reflexivity|]. cbn [foldM]. rewrite E. destruct (h b x); cbn [bind]; auto. Qed.
Lemma bind_ok : forall A (x : outcome A), bind x (fun a => Ok a) = x. Proof. intros A []; reflexivity. Qed.
Lemma var_step : forall st s, var_rows st s = foldM (step st) [(chars "sys_err_con", LOGUNI); (chars "sigmad", LOG); (chars "taud", LOG)] s.
Proof.
  intros st s. unfold var_rows. cbn [foldM]. unfold step. cbn [fst snd]. destruct (next st _ LOGUNI s); cbn [bind]; [|reflexivity..].
  destruct (next st _ LOG a); cbn [bind]; [|reflexivity..]. rewrite bind_ok. reflexivity.
Qed.
Lemma comp_step : forall m st k s, comp_rows m st k s =
  foldM (step st) [(comp_name k (match m with Tpmap => if Nat.eqb k 0 then "amplitude" else "resp_ratio" | _ => "amplitude" end),
                         match m with Tline neg => if Z.eqb neg 0 then LOG else UNI | _ => LOG end);
                        (comp_name k "centroid", UNI); (comp_name k "sigma", LOG)] s.
Proof.
  intros m st k s. unfold comp_rows. cbn [foldM]. unfold step. cbn [fst snd].
  replace (match m with
    | Tline neg => next st (comp_name k "amplitude") (if (neg =? 0)%Z then LOG else UNI) s
    | Tpmap => if (k =? 0) then next st (comp_name k "amplitude") LOG s else next st (comp_name k "resp_ratio") LOG s
    | Tvmap => next st (comp_name k "amplitude") LOG s end)
  with (next st (comp_name k (match m with Tpmap => if Nat.eqb k 0 then "amplitude" else "resp_ratio" | _ => "amplitude" end))
     (match m with Tline neg => if Z.eqb neg 0 then LOG else UNI | _ => LOG end) s) by (destruct m; [|destruct (k =? 0)|]; reflexivity).
  destruct (next st _ _ s); cbn [bind]; [|reflexivity..].
  destruct (next st _ _ a); cbn [bind]; [|reflexivity..]. rewrite bind_ok. reflexivity.
Qed.
Lemma rounds_ok : forall k d, 0 < d -> rounds (d * k) d = seq 0 k.
Proof.
  intros k d D. unfold rounds. f_equal. replace (d * k + d - 1) with (k * d + (d - 1)) by lia. rewrite Nat.div_add_l by lia. rewrite Nat.div_small by lia. lia.
Qed.
Lemma table_step : forall m g nv nl st, table m g (3 * nv) ((1 + 3 * g) * nl) st = (s <- foldM (step st) (labs m g nv nl) ((-1)%Z, []) ;; Ok (snd s)).
Proof.
  intros m g nv nl st. unfold table, labs. rewrite !rounds_ok by lia. rewrite foldM_app, !foldM_flat.
  rewrite (foldM_ext _ _ _ _ (fun b _ => var_step st b)). destruct (foldM _ (seq 0 nv) _) as [s| | |]; cbn [bind]; try reflexivity.
  rewrite foldM_flat. f_equal. apply foldM_ext. intros b _. unfold line_rows. cbn [foldM]. unfold step at 1. cbn [fst snd].
  destruct (next st _ LOGUNI b); cbn [bind]; try reflexivity. rewrite foldM_flat. apply foldM_ext. intros c k. apply comp_step.
Qed.

(** ** One row *)
Definition rline (i : nat) (l : label) (p : (b64 * b64) * Z * b64) : list ascii :=
  let '((a, b), f, v) := p in
  padl 2 (print_d (Z.of_nat i)) ++ BL :: padr 25 (fst l) ++ BL :: snd l ++ BL ::
  padl 10 (print_f a) ++ BL :: padl 10 (print_f b) ++ BL :: padl 4 (print_d f) ++ BL :: padl 15 (print_e v).
Lemma row_line : forall st i l p, par st i = Some p -> row st (Z.of_nat i) (fst l) (snd l) = Ok (rline i l p ++ [nl]).
Proof.
  intros st i l p H. unfold par in H. unfold row, getz. destruct (Z.ltb_spec (Z.of_nat i) 0); [lia|]. rewrite Nat2Z.id. unfold get.
  destruct (nth_error (p_range st) i) as [[a b]|]; [|discriminate]. destruct (nth_error (p_fix st) i); [|discriminate].
  destruct (nth_error (p_val st) i); [|discriminate]. injection H as <-. cbn [bind fst snd]. unfold rline. f_equal.
  repeat (rewrite <- app_assoc || cbn [app]). reflexivity.
Qed.
Lemma par_some : forall n st i, wf_state (Z.of_nat n) st -> i < n -> exists p, @par b64 st i = Some p.
Proof.
  intros n st i (A & B & C) H. unfold par.
  destruct (nth_error (p_range st) i) eqn:E1; [|apply nth_error_None in E1; lia].
  destruct (nth_error (p_fix st) i) eqn:E2; [|apply nth_error_None in E2; lia].
  destruct (nth_error (p_val st) i) eqn:E3; [|apply nth_error_None in E3; lia]. eauto.
Qed.
(** The rows for labels that start at parameter i. *)
Definition is_row (st : @pstate b64) (i : nat) (l : label) (t : list ascii) : Prop := exists p, par st i = Some p /\ t = rline i l p.
Lemma rows_exist : forall n st ls i t0, wf_state (Z.of_nat n) st -> i + length ls <= n ->
  exists rows, foldM (step st) ls ((Z.of_nat i - 1)%Z, t0) = Ok ((Z.of_nat (i + length ls) - 1)%Z, t0 ++ ScanProofs3.text rows) /\
    length rows = length ls /\ forall j l, nth_error ls j = Some l -> exists t, nth_error rows j = Some t /\ is_row st (i + j) l t.
Proof.
  intros n st ls. induction ls as [|l ls IH]; intros i t0 W B.
  - exists []. cbn [foldM length]. rewrite Nat.add_0_r. unfold ScanProofs3.text. cbn [map concat]. rewrite app_nil_r. split; [reflexivity|]. split; [reflexivity|].
    intros [|j] l H; discriminate H.
  - cbn [length] in B. destruct (par_some n st i W ltac:(lia)) as (p & P). cbn [foldM]. unfold step at 1. unfold next. cbn [fst snd].
    replace (Z.of_nat i - 1 + 1)%Z with (Z.of_nat i) by lia. rewrite (row_line st i l p P). cbn [bind].
    destruct (IH (S i) (t0 ++ rline i l p ++ [nl]) W ltac:(lia)) as (rows & E & L & R).
    replace (Z.of_nat (S i) - 1)%Z with (Z.of_nat i) in E by lia. rewrite E. exists (rline i l p :: rows). split; [|split].
    + cbn [length]. replace (i + S (length ls)) with (S i + length ls) by lia. do 2 f_equal. unfold ScanProofs3.text. cbn [map concat]. rewrite <- !app_assoc. reflexivity.
    + cbn [length]. lia.
    + intros [|j] l' H; cbn [nth_error] in *.
      * injection H as <-. exists (rline i l p). split; [reflexivity|]. rewrite Nat.add_0_r. exists p. auto.
      * destruct (R j l' H) as (t & T & X). exists t. replace (i + S j) with (S i + j) by lia. auto.
Qed.

(** ** Labels *)
Lemma flat_const : forall A B (h : A -> list B) c l, (forall a, In a l -> length (h a) = c) -> length (flat_map h l) = c * length l.
Proof.
  intros A B h c l. induction l as [|a l IH]; intros H; cbn [flat_map length]; [lia|]. rewrite app_length, (H a), IH; [lia| |left; reflexivity].
  intros b I. apply H. right. exact I.
Qed.
Lemma flat_nth : forall A B (h : A -> list B) c l j a q, (forall x, In x l -> length (h x) = c) -> nth_error l j = Some a -> q < c ->
  nth_error (flat_map h l) (c * j + q) = nth_error (h a) q.
Proof.
  intros A B h c l. induction l as [|x l IH]; intros [|j] a q H N Q; cbn [nth_error] in N; try discriminate; cbn [flat_map].
  - injection N as <-. rewrite Nat.mul_0_r. cbn [Nat.add]. apply nth_error_app1. rewrite H; [exact Q|left; reflexivity].
  - rewrite nth_error_app2; rewrite (H x) by (left; reflexivity); [|lia].
    replace (c * S j + q - c) with (c * j + q) by lia. apply IH; auto. intros y I. apply H. right. exact I.
Qed.
Lemma nth_seq : forall n j, j < n -> nth_error (seq 0 n) j = Some j.
Proof.
  intros n j H. rewrite (nth_error_nth' (seq 0 n) 0) by (rewrite seq_length; exact H). f_equal. rewrite seq_nth by exact H. reflexivity.
Qed.
Lemma comp_len : forall (m : tmode) (g : nat), length (flat_map (fun k => [(comp_name k (match m with Tpmap => if Nat.eqb k 0 then "amplitude" else "resp_ratio" | _ => "amplitude" end),
                         match m with Tline neg => if Z.eqb neg 0 then LOG else UNI | _ => LOG end);
                        (comp_name k "centroid", UNI); (comp_name k "sigma", LOG)]) (seq 0 g)) = 3 * g.
Proof. intros m g. rewrite (flat_const _ _ _ 3) by reflexivity. rewrite seq_length. reflexivity. Qed.
Lemma labs_len : forall m g nv nl, length (labs m g nv nl) = 3 * nv + (1 + 3 * g) * nl.
Proof.
  intros m g nv nl. unfold labs. rewrite app_length, (flat_const _ _ _ 3), (flat_const _ _ _ (1 + 3 * g)), !seq_length; [reflexivity| |reflexivity].
  intros a _. cbn [length]. rewrite comp_len. reflexivity.
Qed.
(** A type in the table is the word followed by blanks. *)
Definition blanks (t : list ascii) (w : list ascii) : Prop := exists k, t = w ++ repeat BL k /\ length t = 6.
Lemma blanks_loguni : blanks LOGUNI (str "LOGUNI"). Proof. exists 0. split; reflexivity. Qed.
Lemma blanks_log : blanks LOG (str "LOG"). Proof. exists 3. split; reflexivity. Qed.
Lemma blanks_uni : blanks UNI (str "UNI"). Proof. exists 3. split; reflexivity. Qed.
Lemma labs_nth : forall m g nv nl i name type, labelled m g nv i name type -> i < 3 * nv + (1 + 3 * g) * nl ->
  exists ty, nth_error (labs m g nv nl) i = Some (name, ty) /\ blanks ty type.
Proof.
  intros m g nv nl i name type H B. unfold labs. destruct H as [s q name type S Q|l|l k q name type K Q].
  - assert (Q3 : q < 3). { change 3 with (length drw_labels). apply nth_error_Some. congruence. }
    rewrite nth_error_app1 by (rewrite (flat_const _ _ _ 3) by reflexivity; rewrite seq_length; lia).
    rewrite (flat_nth _ _ _ 3 _ s s q) by (auto using nth_seq).
    destruct q as [|[|[|q]]]; cbn in Q; try (exfalso; lia); injection Q as <- <-; cbn [nth_error];
      eexists; (split; [reflexivity|]); auto using blanks_loguni, blanks_log, blanks_uni.
  - assert (L : l < nl) by nia.
    rewrite nth_error_app2 by (rewrite (flat_const _ _ _ 3) by reflexivity; rewrite seq_length; lia).
    rewrite (flat_const _ _ _ 3) by reflexivity. rewrite seq_length. replace (3 * nv + l * (1 + 3 * g) - 3 * nv) with ((1 + 3 * g) * l + 0) by lia.
    rewrite (flat_nth _ _ _ (1 + 3 * g) _ l l 0); [|intros x _; cbn [length]; rewrite comp_len; reflexivity|auto using nth_seq|lia].
    cbn [nth_error]. exists LOGUNI. split; [reflexivity|apply blanks_loguni].
  - assert (Q3 : q < 3). { change 3 with (length (comp_labels m k)). apply nth_error_Some. congruence. }
    assert (L : l < nl) by nia.
    rewrite nth_error_app2 by (rewrite (flat_const _ _ _ 3) by reflexivity; rewrite seq_length; lia).
    rewrite (flat_const _ _ _ 3) by reflexivity. rewrite seq_length. replace (3 * nv + l * (1 + 3 * g) + 1 + 3 * k + q - 3 * nv) with ((1 + 3 * g) * l + S (3 * k + q)) by lia.
    rewrite (flat_nth _ _ _ (1 + 3 * g) _ l l (S (3 * k + q))); [|intros x _; cbn [length]; rewrite comp_len; reflexivity|auto using nth_seq|lia].
    cbn [nth_error]. rewrite (flat_nth _ _ _ 3 _ k k q) by (auto using nth_seq).
    destruct q as [|[|[|q]]]; cbn [comp_labels nth_error] in *; try (exfalso; lia).
    + injection Q as <- <-. unfold comp_name. destruct m as [neg| |]; [destruct (neg =? 0)%Z| |]; eexists; (split; [reflexivity|]); auto using blanks_log, blanks_uni.
    + injection Q as <- <-. eexists; (split; [reflexivity|]); auto using blanks_uni.
    + injection Q as <- <-. eexists; (split; [reflexivity|]); auto using blanks_log.
Qed.
(** Every parameter has a label, and only one. *)
Lemma labelled_total : forall m g nv nl i, i < 3 * nv + (1 + 3 * g) * nl -> exists name type, labelled m g nv i name type.
Proof.
  intros m g nv nl i B. destruct (Nat.lt_ge_cases i (3 * nv)) as [L|L].
  - assert (D := Nat.div_mod i 3 ltac:(lia)). assert (M := Nat.mod_upper_bound i 3 ltac:(lia)).
    destruct (nth_error drw_labels (i mod 3)) as [[a b]|] eqn:E; [|apply nth_error_None in E; change (length drw_labels) with 3 in E; lia].
    exists (str a), (str b). rewrite D. apply L_drw; [|exact E]. apply Nat.div_lt_upper_bound; lia.
  - assert (D := Nat.div_mod (i - 3 * nv) (1 + 3 * g) ltac:(lia)). assert (M := Nat.mod_upper_bound (i - 3 * nv) (1 + 3 * g) ltac:(lia)).
    set (l := (i - 3 * nv) / (1 + 3 * g)) in *. set (r := (i - 3 * nv) mod (1 + 3 * g)) in *. clearbody l r.
    destruct r as [|r].
    + exists (str "sys_err_line"), (str "LOGUNI"). replace i with (3 * nv + l * (1 + 3 * g)) by lia. apply L_err.
    + assert (D' := Nat.div_mod r 3 ltac:(lia)). assert (M' := Nat.mod_upper_bound r 3 ltac:(lia)).
      destruct (nth_error (comp_labels m (r / 3)) (r mod 3)) as [[a b]|] eqn:E; [|apply nth_error_None in E; change (length (comp_labels m (r / 3))) with 3 in E; lia].
      eexists. exists (str b). replace i with (3 * nv + l * (1 + 3 * g) + 1 + 3 * (r / 3) + r mod 3) by lia. apply L_comp; [|exact E]. apply Nat.div_lt_upper_bound; lia.
Qed.

(** ** Words of a row *)
Definition stop (r : list ascii) : Prop := match r with [] => True | c :: _ => isspace c = true end.
Lemma words_space : forall s r, space s -> words (s ++ r) = words r.
Proof. intros s r H. induction H as [|c s C H IH]; [reflexivity|]. cbn [app]. unfold words in *. cbn [split_at]. rewrite C. cbn [filter]. exact IH. Qed.
Lemma words_word : forall w r, nonspace w -> stop r -> words (w ++ r) = w :: words r.
Proof.
  intros w r [NE F] S. unfold words. rewrite split_app by exact F. destruct r as [|c r].
  - cbn [split_at]. rewrite app_nil_r. destruct w; [congruence|reflexivity].
  - cbn [split_at]. cbn [stop] in S. rewrite S. rewrite app_nil_r. destruct w; [congruence|reflexivity].
Qed.
Lemma stop_bl : forall r, stop (BL :: r). Proof. reflexivity. Qed.
Lemma stop_blanks : forall k r, stop r -> stop (repeat BL k ++ r). Proof. intros [|k] r H; [exact H|reflexivity]. Qed.
Lemma words_bl : forall r, words (BL :: r) = words r. Proof. reflexivity. Qed.
Lemma numeral_nonspace : forall t y, numeral t y -> nonspace t.
Proof. intros t y N. destruct (numeral_plain _ _ N) as [NE H]. split; [exact NE|apply numchar_nonspace; exact H]. Qed.
Lemma print_f_numeral : forall x, finite x -> numeral (print_f x) (reread x).
Proof. intros x F. rewrite print_f_eq by exact F. apply fixed6_numeral. apply micro_nonneg. Qed.
Lemma print_e_numeral : forall x, finite x -> exists y, numeral (print_e x) y /\ back 7 x y.
Proof.
  intros x F. destruct (print_e_writes x F) as (n & p & N & NU & V). exists (to_b64 (Bsign x) n p). split; [exact NU|].
  destruct (scan_e x [] [] F ltac:(constructor) Logic.I) as (y & S & B). cbn [app] in S.
  assert (S' : scan_lf ([] ++ print_e x ++ []) = Some (to_b64 (Bsign x) n p, [])) by (apply scan_lf_ok; [exact NU|constructor|exact Logic.I]).
  cbn [app] in S'. rewrite S' in S. injection S as <-. exact B.
Qed.
Lemma print_d_nonspace : forall n, (0 <= n)%Z -> nonspace (print_d n).
Proof. intros n H. destruct (print_d_ok n H) as (NE & D & _). split; [exact NE|apply digits_nonspace; exact D]. Qed.
Lemma str_nonspace : forall s, forallb (fun c => negb (isspace c)) (list_ascii_of_string s) = true -> str s <> [] -> nonspace (str s).
Proof.
  intros s H N. split; [exact N|]. apply Forall_forall. intros c I. rewrite forallb_forall in H. apply H in I. destruct (isspace c); [discriminate|reflexivity].
Qed.
Lemma nonspace_app : forall a b, nonspace a -> nonspace b -> nonspace (a ++ b).
Proof. intros a b [A A'] [B B']. split; [destruct a; [congruence|discriminate]|apply Forall_app; auto]. Qed.
Lemma labelled_words : forall m g nv i name type, labelled m g nv i name type -> nonspace name /\ nonspace type.
Proof.
  assert (S : forall s, In s ["sys_err_con"; "sigmad"; "taud"; "LOGUNI"; "LOG"; "UNI"; "sys_err_line"; "amplitude"; "resp_ratio"; "centroid"; "sigma"; "-th_component_"]%string -> nonspace (str s)).
  { intros s I. apply str_nonspace; repeat (destruct I as [<-|I]; [first [reflexivity|discriminate]|]); destruct I. }
  intros m g nv i name type []; subst.
  - destruct q as [|[|[|q]]]; cbn in H0; try discriminate H0; try (destruct q; discriminate H0); injection H0 as <- <-; split; apply S; cbn; tauto.
  - split; apply S; cbn; tauto.
  - assert (P := print_d_nonspace (Z.of_nat k) ltac:(lia)).
    destruct q as [|[|[|q]]]; cbn in H0; try discriminate H0; try (destruct q; discriminate H0); injection H0 as <- <-.
    + split; [repeat apply nonspace_app; [exact P|apply S; cbn; tauto|destruct m; [|destruct k|]; apply S; cbn; tauto]|destruct m; [destruct (neg =? 0)%Z| |]; apply S; cbn; tauto].
    + split; [repeat apply nonspace_app; [exact P|apply S; cbn; tauto|apply S; cbn; tauto]|apply S; cbn; tauto].
    + split; [repeat apply nonspace_app; [exact P|apply S; cbn; tauto|apply S; cbn; tauto]|apply S; cbn; tauto].
Qed.
Lemma name_len : forall m g nv i name type n, labelled m g nv i name type -> i < n -> (Z.of_nat n < 2 ^ 31)%Z -> length name <= 45 /\ length type <= 6.
Proof.
  intros m g nv i name type n H I B. destruct H; subst.
  - destruct q as [|[|[|q]]]; cbn in H0; try discriminate H0; try (destruct q; discriminate H0); injection H0 as <- <-; cbn; lia.
  - cbn; lia.
  - assert (P : length (print_d (Z.of_nat k)) <= 20).
    { assert (k <= n). { assert (Z0 := Nat.le_0_l (l * (1 + 3 * g))). revert Z0 I. generalize (l * (1 + 3 * g)). intros. lia. }
      apply print_d_len; [|lia]. split; [lia|]. apply Z.lt_le_trans with (2 ^ 31)%Z; [lia|]. vm_compute. discriminate. }
    rewrite !app_length. change (length (str "-th_component_")) with 14. revert P. generalize (length (print_d (Z.of_nat k))). intros c P.
    assert (LN : length (str name) <= 10 /\ length (str type) <= 6); [|lia].
    destruct q as [|[|[|q]]]; cbn in H0; try discriminate H0; try (destruct q; discriminate H0); injection H0 as <- <-.
    + destruct m as [neg| |]; [destruct (neg =? 0)%Z|destruct k|]; cbn; lia.
    + cbn; lia.
    + cbn; lia.
Qed.
Lemma rline_words : forall i name ty type a b f v, nonspace name -> nonspace type -> blanks ty type -> finite a -> finite b -> finite v -> (0 <= f)%Z ->
  words (rline i (name, ty) ((a, b), f, v)) = [print_d (Z.of_nat i); name; type; print_f a; print_f b; print_d f; print_e v].
Proof.
  intros i name ty type a b f v N T (k & -> & LT6) FA FB FV F0. unfold rline, padl, padr. cbn [fst snd]. repeat rewrite <- app_assoc. cbn [app].
  assert (NA := numeral_nonspace _ _ (print_f_numeral a FA)). assert (NB := numeral_nonspace _ _ (print_f_numeral b FB)).
  destruct (print_e_numeral v FV) as (y & NV & _). apply numeral_nonspace in NV.
  assert (NI := print_d_nonspace (Z.of_nat i) ltac:(lia)). assert (NF := print_d_nonspace f F0).
  rewrite <- (app_nil_r (print_e v)).
  repeat first [rewrite words_bl|rewrite (words_space (repeat BL _)) by (apply space_blanks)|
    rewrite words_word; [f_equal|assumption|first [apply stop_bl|apply stop_blanks, stop_bl|exact Logic.I]]].
  symmetry. apply app_nil_r.
Qed.

(** ** The table *)
Lemma count_var_ok : forall u nset, count_var u nset = 3 * blocks_var (u =? 1)%Z nset.
Proof. intros u nset. unfold count_var, blocks_var. destruct (u =? 1)%Z; reflexivity. Qed.
Lemma max_fold : forall l a, fold_left (fun m n => if Nat.ltb m n then n else m) l a = Nat.max a (list_max l).
Proof.
  induction l as [|x l IH]; intros a; cbn [fold_left]; [cbn; lia|]. rewrite IH. change (list_max (x :: l)) with (Nat.max x (list_max l)).
  destruct (Nat.ltb_spec a x); lia.
Qed.
Lemma sum_fold : forall c l a, fold_left (fun a n => a + c * n) l a = a + c * list_sum l.
Proof. induction l as [|x l IH]; intros a; cbn [fold_left]; [cbn; lia|]. rewrite IH. change (list_sum (x :: l)) with (x + list_sum l). lia. Qed.
Lemma count_line_ok : forall u g nlset, count_line u g nlset = (1 + 3 * g) * blocks_line (u =? 1)%Z nlset.
Proof. intros u g nlset. unfold count_line, blocks_line. destruct (u =? 1)%Z; [rewrite max_fold; lia|rewrite sum_fold; lia]. Qed.
Lemma table_rows : forall m g nv nl st, ok_tab (3 * nv + (1 + 3 * g) * nl) st ->
  exists rows, table m g (3 * nv) ((1 + 3 * g) * nl) st = Ok (ScanProofs3.text rows) /\ length rows = 3 * nv + (1 + 3 * g) * nl /\
    forall i name type, labelled m g nv i name type -> i < 3 * nv + (1 + 3 * g) * nl ->
      exists ty t, blanks ty type /\ nth_error rows i = Some t /\ is_row st i (name, ty) t.
Proof.
  intros m g nv nl st (W & B & F). rewrite table_step.
  destruct (rows_exist (3 * nv + (1 + 3 * g) * nl) st (labs m g nv nl) 0 [] W) as (rows & E & L & R); [rewrite labs_len; lia|].
  change (Z.of_nat 0 - 1)%Z with (-1)%Z in E. rewrite E. cbn [bind snd app]. exists rows. split; [reflexivity|]. rewrite labs_len in L. split; [exact L|].
  intros i name type H I. destruct (labs_nth m g nv nl i name type H I) as (ty & N & BL). destruct (R i _ N) as (t & T & X). exists ty, t. auto.
Qed.
Lemma rline_calm : forall m g nv i name ty type p, labelled m g nv i name type -> blanks ty type ->
  (let '((a, b), f, v) := p in finite a /\ finite b /\ finite v /\ (0 <= f)%Z) -> calm (rline i (name, ty) p).
Proof.
  intros m g nv i name ty type [[[a b] f] v] H (k & -> & LT6) (A & B & V & F). unfold rline, padl, padr. cbn [fst snd].
  assert (Q : forall m g nv i name type, labelled m g nv i name type -> calm name /\ calm type).
  { assert (S : forall s, forallb (fun c => negb (if ascii_dec c nl then true else false) && negb (if ascii_dec c NUL then true else false)) (list_ascii_of_string s) = true -> calm (str s)).
    { intros s E. apply Forall_forall. intros c I. rewrite forallb_forall in E. apply E in I. destruct (ascii_dec c nl), (ascii_dec c NUL); try discriminate I. auto. }
    clear - S. intros m g nv i name type []; subst.
    - destruct q as [|[|[|q]]]; cbn in H0; try discriminate H0; try (destruct q; discriminate H0); injection H0 as <- <-; split; apply S; reflexivity.
    - split; apply S; reflexivity.
    - assert (P := calm_d (Z.of_nat k) ltac:(lia)).
      destruct q as [|[|[|q]]]; cbn in H0; try discriminate H0; try (destruct q; discriminate H0); injection H0 as <- <-.
      + split; [repeat apply calm_app; [exact P|apply S; reflexivity|destruct m; [|destruct k|]; apply S; reflexivity]|destruct m; [destruct (neg =? 0)%Z| |]; apply S; reflexivity].
      + split; [repeat apply calm_app; [exact P|apply S; reflexivity|apply S; reflexivity]|apply S; reflexivity].
      + split; [repeat apply calm_app; [exact P|apply S; reflexivity|apply S; reflexivity]|apply S; reflexivity]. }
  destruct (Q _ _ _ _ _ _ H) as [CN CT].
  repeat (first [apply calm_blanks|apply calm_f; assumption|apply calm_e; assumption|apply calm_d; lia|assumption|apply calm_cons|apply calm_app]).
Qed.
Lemma print_f_len60 : forall x, finite x -> (Rabs (B2R x) <= 10 ^ 60)%R -> length (print_f x) <= 69.
Proof.
  intros x F B. rewrite print_f_eq by exact F. unfold fixed6. rewrite app_length, app_length. cbn [length]. rewrite pad_len. cbn [length].
  assert (MS := minus_len (Bsign x)). assert (MN := micro_nonneg x).
  assert (MB : (micro x <= 10 ^ 66)%Z).
  { unfold micro. rewrite <- (@Zrnd_IZR ZnearestE (valid_rnd_N _) (10 ^ 66)). apply (@Zrnd_le ZnearestE (valid_rnd_N _)).
    rewrite pow10 by lia. change (Z.to_nat 66) with (60 + 6). rewrite pow_add. apply Rmult_le_compat_r; [|exact B]. apply pow_le. lra. }
  assert (length (print_d (micro x / 10 ^ 6)) <= 61); [|lia]. apply print_d_len; [|lia]. split; [apply Z.div_pos; lia|]. apply Z.div_lt_upper_bound; [lia|].
  change (Z.of_nat 61) with 61%Z. eapply Z.le_lt_trans; [exact MB|]. vm_compute. reflexivity.
Qed.
Lemma rline_len : forall m g nv i n name ty type a b f v, labelled m g nv i name type -> i < n -> (Z.of_nat n < 2 ^ 31)%Z -> blanks ty type ->
  finite a -> finite b -> finite v -> (Rabs (B2R a) <= 10 ^ 60)%R -> (Rabs (B2R b) <= 10 ^ 60)%R -> (0 <= f < 2 ^ 31)%Z -> length (rline i (name, ty) ((a, b), f, v)) <= 254.
Proof.
  intros m g nv i n name ty type a b f v H I NB (k & _ & LT) FA FB FV BA BB BF. unfold rline, padl, padr. cbn [fst snd]. repeat (rewrite app_length || cbn [length]). rewrite !repeat_length.
  destruct (name_len _ _ _ _ _ _ _ H I NB) as [LN _].
  assert (D : forall c, (0 <= c < 2 ^ 31)%Z -> length (print_d c) <= 10).
  { intros c Hc. apply print_d_len; [|lia]. split; [lia|]. apply Z.lt_le_trans with (2 ^ 31)%Z; [lia|]. vm_compute. discriminate. }
  assert (D1 := D (Z.of_nat i) ltac:(lia)). assert (D2 := D f BF). assert (A := print_f_len60 a FA BA). assert (B := print_f_len60 b FB BB). assert (E := print_e_len v FV). lia.
Qed.
Lemma lines_text : forall rows, Forall calm rows -> lines (ScanProofs3.text rows) = rows ++ [[]].
Proof.
  intros rows F. induction F as [|l rows C F IH]; [reflexivity|]. unfold ScanProofs3.text in *. cbn [map concat]. rewrite <- app_assoc. unfold lines in *. rewrite split_app.
  - cbn [app split_at]. destruct (ascii_dec nl nl); [|congruence]. rewrite app_nil_r. rewrite IH. reflexivity.
  - eapply Forall_impl; [|exact C]. intros c [N _]. cbv beta. destruct (ascii_dec c nl); [congruence|reflexivity].
Qed.
Lemma rows_calm : forall m g nv nl st rows, ok_tab (3 * nv + (1 + 3 * g) * nl) st -> length rows = 3 * nv + (1 + 3 * g) * nl ->
  (forall i name type, labelled m g nv i name type -> i < 3 * nv + (1 + 3 * g) * nl -> exists ty t, blanks ty type /\ nth_error rows i = Some t /\ is_row st i (name, ty) t) ->
  Forall calm rows.
Proof.
  intros m g nv nl st rows (W & B & F) L R. apply Forall_forall. intros t I. apply In_nth_error in I as (i & I).
  assert (LI : i < 3 * nv + (1 + 3 * g) * nl). { rewrite <- L. apply nth_error_Some. congruence. }
  destruct (labelled_total m g nv nl i LI) as (name & type & LB). destruct (R i name type LB LI) as (ty & t' & BT & T & [[[a b] f] v] & P & ->).
  assert (EQ : t = rline i (name, ty) (a, b, f, v)) by congruence. rewrite EQ. eapply rline_calm; [exact LB|exact BT|]. destruct (F i a b f v P) as (A1 & A2 & A3 & _ & _ & A4). repeat split; auto. lia.
Qed.

(** ** C94 *)
(** The table has one line per parameter, in the order of the vector, with its
    number, name, type, limits, fix flag and fixed value. *)
Theorem C94_table : forall m g uv ut nset nlset st n,
  n = 3 * blocks_var (uv =? 1)%Z nset + (1 + 3 * g) * blocks_line (ut =? 1)%Z nlset -> ok_tab n st ->
  exists t rows, table m g (count_var uv nset) (count_line ut g nlset) st = Ok t /\ lines t = rows ++ [[]] /\ length rows = n /\
    forall i, i < n -> exists a b f v l, par st i = Some ((a, b), f, v) /\ nth_error rows i = Some l /\
      (exists name type, labelled m g (blocks_var (uv =? 1)%Z nset) i name type) /\
      forall name type, labelled m g (blocks_var (uv =? 1)%Z nset) i name type ->
        words l = [print_d (Z.of_nat i); name; type; print_f a; print_f b; print_d f; print_e v].
Proof.
  intros m g uv ut nset nlset st n -> K. rewrite count_var_ok, count_line_ok. revert K. generalize (blocks_var (uv =? 1)%Z nset) (blocks_line (ut =? 1)%Z nlset). intros nv nl K.
  destruct (table_rows m g nv nl st K) as (rows & E & L & R). exists (ScanProofs3.text rows), rows. split; [exact E|].
  split; [apply lines_text; eapply rows_calm; eauto|]. split; [exact L|]. intros i I.
  destruct (labelled_total m g nv nl i I) as (name & type & LB). destruct (R i name type LB I) as (ty & t & BT & T & [[[a b] f] v] & P & ->).
  exists a, b, f, v, (rline i (name, ty) (a, b, f, v)). split; [exact P|]. split; [exact T|]. split; [exists name, type; exact LB|].
  intros name' type' LB'. destruct (R i name' type' LB' I) as (ty' & t' & BT' & T' & p & P' & ->). rewrite P in P'. injection P' as <-.
  assert (EQ : rline i (name, ty) (a, b, f, v) = rline i (name', ty') (a, b, f, v)) by congruence. rewrite EQ.
  destruct (labelled_words _ _ _ _ _ _ LB') as [N1 N2]. destruct K as (_ & _ & F). destruct (F i a b f v P) as (A1 & A2 & A3 & _ & _ & A4).
  apply rline_words; auto. lia.
Qed.
Print Assumptions C94_table.

Lemma calm_in : forall l, calm l -> ~ In nl l /\ ~ In NUL l.
Proof. intros l C. unfold calm in C. rewrite Forall_forall in C. split; intros I; apply C in I; tauto. Qed.
Lemma space_ne : forall k, space (repeat BL k ++ [BL]) /\ repeat BL k ++ [BL] <> [].
Proof. intros k. split; [apply Forall_app; split; [apply space_blanks|repeat constructor]|destruct k; discriminate]. Qed.
Lemma row_record : forall m g nv i n name ty type a b f v, labelled m g nv i name type -> i < n -> (Z.of_nat n < 2 ^ 31)%Z -> blanks ty type ->
  finite a -> finite b -> finite v -> (Rabs (B2R a) <= 10 ^ 60)%R -> (Rabs (B2R b) <= 10 ^ 60)%R -> (0 <= f < 2 ^ 31)%Z ->
  exists y, back 7 v y /\ record_line numeral (mkprec (Z.of_nat i) (reread a) (reread b) f y) (rline i (name, ty) ((a, b), f, v)).
Proof.
  intros m g nv i n name ty type a b f v H I NB BT FA FB FV BA BB BF. destruct (print_e_numeral v FV) as (y & NV & BY). exists y. split; [exact BY|].
  assert (LL := rline_len m g nv i n name ty type a b f v H I NB BT FA FB FV BA BB BF).
  destruct (calm_in _ (rline_calm m g nv i name ty type ((a, b), f, v) H BT ltac:(repeat split; auto; lia))) as [C1 C2].
  destruct (labelled_words _ _ _ _ _ _ H) as [N1 N2]. destruct BT as (k & -> & _).
  exists (repeat BL (2 - length (print_d (Z.of_nat i)))), (print_d (Z.of_nat i)), [BL], name, (repeat BL (25 - length name) ++ [BL]), type,
    (repeat BL k ++ BL :: repeat BL (10 - length (print_f a))), (print_f a), (BL :: repeat BL (10 - length (print_f b))), (print_f b),
    (BL :: repeat BL (4 - length (print_d f))), (print_d f), (BL :: repeat BL (15 - length (print_e v))), (print_e v), [].
  assert (SB : forall j, space (BL :: repeat BL j) /\ BL :: repeat BL j <> []) by (intros j; split; [apply (space_blanks (S j))|discriminate]).
  cbn [r_idx r_min r_max r_fix r_val].
  split; [unfold rline, padl, padr; cbn [fst snd]; rewrite app_nil_r; repeat (rewrite <- app_assoc || cbn [app]); reflexivity|].
  split; [apply space_blanks|]. split; [apply print_d_ok; lia|]. split; [lia|]. split; [exact N1|]. split; [exact N2|].
  split; [apply print_f_numeral; exact FA|]. split; [apply print_f_numeral; exact FB|]. split; [apply print_d_ok; lia|]. split; [lia|]. split; [exact NV|].
  split; [constructor|]. split; [|auto].
  apply Forall_cons; [split; [repeat constructor|discriminate]|]. apply Forall_cons; [apply space_ne|].
  apply Forall_cons; [split; [apply Forall_app; split; [apply space_blanks|apply SB]|destruct k; discriminate]|].
  apply Forall_cons; [apply SB|]. apply Forall_cons; [apply SB|]. apply Forall_cons; [apply SB|apply Forall_nil].
Qed.
Lemma rows_records : forall m g nv nl st rows, ok_tab (3 * nv + (1 + 3 * g) * nl) st -> length rows = 3 * nv + (1 + 3 * g) * nl ->
  (forall i name type, labelled m g nv i name type -> i < 3 * nv + (1 + 3 * g) * nl -> exists ty t, blanks ty type /\ nth_error rows i = Some t /\ is_row st i (name, ty) t) ->
  forall k j, j + k = 3 * nv + (1 + 3 * g) * nl ->
  exists rs, Forall2 (record_line numeral) rs (skipn j rows) /\ length rs = k /\
    forall q r, nth_error rs q = Some r -> r_idx r = Z.of_nat (j + q) /\
      exists a b f v, par st (j + q) = Some ((a, b), f, v) /\ finite a /\ finite b /\ finite v /\ r_min r = reread a /\ r_max r = reread b /\ r_fix r = f /\ back 7 v (r_val r).
Proof.
  intros m g nv nl st rows (W & B & F) L R. induction k as [|k IH]; intros j J.
  - exists []. rewrite skipn_all2 by lia. split; [constructor|]. split; [reflexivity|]. intros [|q] r H; discriminate H.
  - assert (LJ : j < 3 * nv + (1 + 3 * g) * nl) by lia.
    destruct (labelled_total m g nv nl j LJ) as (name & type & LB). destruct (R j name type LB LJ) as (ty & t & BT & T & [[[a b] f] v] & P & E).
    destruct (F j a b f v P) as (FA & FB & FV & BA & BB & BF).
    destruct (row_record m g nv j _ name ty type a b f v LB LJ B BT FA FB FV BA BB BF) as (y & BY & RL). rewrite <- E in RL.
    destruct (IH (S j) ltac:(lia)) as (rs & FR & LR & QR). exists (mkprec (Z.of_nat j) (reread a) (reread b) f y :: rs). split; [|split].
    + assert (SK : skipn j rows = t :: skipn (S j) rows). { clear - T. revert j T. induction rows as [|x rows IHr]; intros [|j] T; cbn [nth_error] in T; try discriminate; [injection T as ->; reflexivity|]. cbn [skipn]. apply IHr. exact T. }
      rewrite SK. constructor; assumption.
    + cbn [length]. lia.
    + intros [|q] r H; cbn [nth_error] in H.
      * injection H as <-. rewrite Nat.add_0_r. split; [reflexivity|]. exists a, b, f, v. cbn. auto 10.
      * replace (j + S q) with (S j + q) by lia. apply QR. exact H.
Qed.
Lemma last_for_nth : forall V (rs : list (@prec V)) j i, (forall q r, nth_error rs q = Some r -> r_idx r = Z.of_nat (j + q)) -> i < length rs ->
  last_for (j + i) rs = nth_error rs i.
Proof.
  intros V rs. induction rs as [|r rs IH]; intros j i H L; [cbn in L; lia|]. rewrite last_cons.
  assert (H' : forall q r, nth_error rs q = Some r -> r_idx r = Z.of_nat (S j + q)). { intros q r0 Q. rewrite (H (S q) r0 Q). f_equal. lia. }
  destruct i as [|i].
  - rewrite Nat.add_0_r. cbn [nth_error]. assert (E := H 0 r eq_refl). rewrite Nat.add_0_r in E. rewrite E, Z.eqb_refl.
    replace (last_for j rs) with (@None (@prec V)); [reflexivity|]. symmetry. clear - H'. unfold last_for.
    destruct (find _ (rev rs)) as [x|] eqn:E; [|reflexivity]. apply find_some in E as [I E]. apply in_rev in I. apply In_nth_error in I as (q & I). apply H' in I. lia.
  - cbn [nth_error length] in *. replace (j + S i) with (S j + i) by lia. rewrite (IH (S j) i H') by lia.
    destruct (nth_error rs i) eqn:E; [reflexivity|]. apply nth_error_None in E. lia.
Qed.
(** Loaded as a prior file the table sets every parameter: limits to six
    decimals, the flag as it was, the fixed value to seven digits, whatever the
    parameters were before. *)
Definition kept (st st' : @pstate b64) (n : nat) : Prop :=
  forall i, i < n -> exists a b f v a' b' v', par st i = Some ((a, b), f, v) /\ par st' i = Some ((a', b'), f, v') /\
    six_decimals a a' /\ six_decimals b b' /\ digits 7 v v'.
Lemma reload : forall m g nv nl st st0 str0 buf0, ok_tab (3 * nv + (1 + 3 * g) * nl) st -> wf_state (Z.of_nat (3 * nv + (1 + 3 * g) * nl)) st0 ->
  exists t fuel0, table m g (3 * nv) ((1 + 3 * g) * nl) st = Ok t /\ forall fuel, fuel0 <= fuel -> exists st',
    load_par_names scan_lf fuel (Z.of_nat (3 * nv + (1 + 3 * g) * nl)) t str0 buf0 st0 = Ok st' /\ wf_state (Z.of_nat (3 * nv + (1 + 3 * g) * nl)) st' /\
    forall i, i < 3 * nv + (1 + 3 * g) * nl -> exists a b f v v', par st i = Some ((a, b), f, v) /\ finite a /\ finite b /\ finite v /\
      par st' i = Some ((reread a, reread b), f, v') /\ back 7 v v'.
Proof.
  intros m g nv nl st st0 str0 buf0 K W0. destruct (table_rows m g nv nl st K) as (rows & E & L & R). exists (ScanProofs3.text rows).
  destruct (rows_records m g nv nl st rows K L R (3 * nv + (1 + 3 * g) * nl) 0 eq_refl) as (rs & FR & LR & QR). cbn [skipn] in FR.
  destruct (PropScan.C49_records numeral scan_lf numeral_plain scan_lf_ok rs rows (Z.of_nat (3 * nv + (1 + 3 * g) * nl)) st0 str0 buf0 FR) as (fuel0 & H); [|exact W0|].
  - apply Forall_forall. intros r I. apply In_nth_error in I as (q & I). destruct (QR q r I) as [-> _].
    assert (q < length rs) by (apply nth_error_Some; congruence). lia.
  - exists fuel0. split; [exact E|]. intros fuel LF. destruct (H fuel LF) as (st' & E' & W' & P). exists st'. split; [exact E'|]. split; [exact W'|].
    intros i I. assert (LI := last_for_nth _ rs 0 i (fun q r X => proj1 (QR q r X)) ltac:(lia)). cbn [Nat.add] in LI. specialize (P i). rewrite LI in P.
    destruct (nth_error rs i) as [r|] eqn:N; [|apply nth_error_None in N; lia]. destruct (QR i r N) as (_ & a & b & f & v & PS & FA & FB & FV & RA & RB & RF & BV).
    exists a, b, f, v, (r_val r). rewrite RA, RB, RF in P. auto 10.
Qed.
Theorem C94_reload : forall m g uv ut nset nlset st st0 str0 buf0 n,
  n = 3 * blocks_var (uv =? 1)%Z nset + (1 + 3 * g) * blocks_line (ut =? 1)%Z nlset -> ok_tab n st -> wf_state (Z.of_nat n) st0 ->
  exists t fuel0, table m g (count_var uv nset) (count_line ut g nlset) st = Ok t /\ forall fuel, fuel0 <= fuel ->
    exists st', load_par_names scan_lf fuel (Z.of_nat n) t str0 buf0 st0 = Ok st' /\ wf_state (Z.of_nat n) st' /\ kept st st' n.
Proof.
  intros m g uv ut nset nlset st st0 str0 buf0 n ->. rewrite count_var_ok, count_line_ok. generalize (blocks_var (uv =? 1)%Z nset) (blocks_line (ut =? 1)%Z nlset). intros nv nl K W.
  destruct (reload m g nv nl st st0 str0 buf0 K W) as (t & fuel0 & E & H). exists t, fuel0. split; [exact E|]. intros fuel LF. destruct (H fuel LF) as (st' & L & W' & P).
  exists st'. split; [exact L|]. split; [exact W'|]. intros i I. destruct (P i I) as (a & b & f & v & v' & PS & FA & FB & FV & PS' & BV).
  exists a, b, f, v, (reread a), (reread b), v'. split; [exact PS|]. split; [exact PS'|]. split; [apply reread_six; exact FA|]. split; [apply reread_six; exact FB|]. apply back_digits; [lia|exact BV].
Qed.
Print Assumptions C94_reload.
(** Printed after loading, the table is the same text. *)
Lemma same_rows : forall n st st', (forall i, i < n -> exists p p', par st i = Some p /\ par st' i = Some p' /\ forall l, rline i l p = rline i l p') ->
  forall ls i t0, i + length ls <= n -> foldM (step st) ls ((Z.of_nat i - 1)%Z, t0) = foldM (step st') ls ((Z.of_nat i - 1)%Z, t0).
Proof.
  intros n st st' H. induction ls as [|l ls IH]; intros i t0 B; [reflexivity|]. cbn [length] in B. destruct (H i ltac:(lia)) as (p & p' & P & P' & E).
  cbn [foldM]. unfold step at 1 3. unfold next. cbn [fst snd]. replace (Z.of_nat i - 1 + 1)%Z with (Z.of_nat i) by lia.
  rewrite (row_line st i l p P), (row_line st' i l p' P'). cbn [bind]. rewrite E. specialize (IH (S i) (t0 ++ rline i l p' ++ [nl]) ltac:(lia)).
  replace (Z.of_nat (S i) - 1)%Z with (Z.of_nat i) in IH by lia. exact IH.
Qed.
Theorem C94_again : forall m g uv ut nset nlset st st0 str0 buf0 n,
  n = 3 * blocks_var (uv =? 1)%Z nset + (1 + 3 * g) * blocks_line (ut =? 1)%Z nlset -> ok_tab n st -> wf_state (Z.of_nat n) st0 ->
  (forall i a b f v, par st i = Some ((a, b), f, v) -> B2R v = 0%R \/ (bpow radix2 (-1000) <= Rabs (B2R v))%R) ->
  exists t fuel0, table m g (count_var uv nset) (count_line ut g nlset) st = Ok t /\ forall fuel, fuel0 <= fuel ->
    exists st', load_par_names scan_lf fuel (Z.of_nat n) t str0 buf0 st0 = Ok st' /\ table m g (count_var uv nset) (count_line ut g nlset) st' = Ok t.
Proof.
  intros m g uv ut nset nlset st st0 str0 buf0 n ->. rewrite count_var_ok, count_line_ok. generalize (blocks_var (uv =? 1)%Z nset) (blocks_line (ut =? 1)%Z nlset). intros nv nl K W NZ.
  destruct (reload m g nv nl st st0 str0 buf0 K W) as (t & fuel0 & E & H). exists t, fuel0. split; [exact E|]. intros fuel LF. destruct (H fuel LF) as (st' & L & W' & P).
  exists st'. split; [exact L|]. rewrite <- E, !table_step. f_equal. symmetry. apply (same_rows (3 * nv + (1 + 3 * g) * nl) st st') with (i := 0); [|rewrite labs_len; lia].
  intros i I. destruct (P i I) as (a & b & f & v & v' & PS & FA & FB & FV & PS' & BV). exists (a, b, f, v), (reread a, reread b, f, v'). split; [exact PS|]. split; [exact PS'|].
  intros l. unfold rline. rewrite (reread_again a FA), (reread_again b FB), (print_e_again v v' FV (NZ _ _ _ _ _ PS) BV). reflexivity.
Qed.
Print Assumptions C94_again.

(** ** A table *)
Definition z3 : b64 := to_b64 true 46 (-1).       (* -4.6 *)
Definition z4 : b64 := to_b64 false 0 0.
Definition z5 : b64 := to_b64 false 25 1.         (* 250 *)
Definition z6 : b64 := to_b64 true 1797693134862315708 290.
Definition ex_st : @pstate b64 :=
  mkps [(z3, z4); (z3, z4); (z3, z5); (z3, z4); (z3, z5); (z4, z5); (z3, z5)] [1; 0; 0; 1; 0; 0; 1]%Z [z4; z6; z6; z4; z6; z6; z3].
Example C94_example : table (Tline 0) 1 (count_var 1 2) (count_line 0 1 [0; 1]) ex_st = Ok (flat_map (fun l => list_ascii_of_string l ++ [nl])
  [" 0 sys_err_con               LOGUNI  -4.600000   0.000000    1    0.000000e+00";
   " 1 sigmad                    LOG     -4.600000   0.000000    0  -1.797693e+308";
   " 2 taud                      LOG     -4.600000 250.000000    0  -1.797693e+308";
   " 3 sys_err_line              LOGUNI  -4.600000   0.000000    1    0.000000e+00";
   " 4 0-th_component_amplitude  LOG     -4.600000 250.000000    0  -1.797693e+308";
   " 5 0-th_component_centroid   UNI      0.000000 250.000000    0  -1.797693e+308";
   " 6 0-th_component_sigma      LOG     -4.600000 250.000000    1   -4.600000e+00"]%string).
Proof. vm_compute. reflexivity. Qed.
(** Three parameters that meet the hypotheses. *)
Definition w0 : b64 := B754_zero false.
Definition w1 : b64 := @B754_finite 53 1024 false 4503599627370496 (-50) eq_refl.   (* 4 *)
Definition wt : b64 := @B754_finite 53 1024 false 7555786372591432 (-74) eq_refl.   (* 4e-7 *)
Definition small_st (x : b64) : @pstate b64 := mkps [(w0, x); (w0, w1); (w0, w1)] [0; 1; 0]%Z [w0; w1; w0].
Lemma w1_val : B2R w1 = 4%R.
Proof. unfold w1. lits. lra. Qed.
Lemma wt_val : (0 < B2R wt <= 1)%R.
Proof. unfold wt. split; lits; lra. Qed.
Example C94_ok : forall x, finite x -> (0 <= B2R x <= 1)%R -> ok_tab 3 (small_st x).
Proof.
  intros x F B. assert (T : (4 <= 10 ^ 60)%R). { apply Rle_trans with (10 ^ 1)%R; [lra|]. apply Rle_pow; [lra|lia]. }
  assert (V := w1_val). assert (Z0 : B2R w0 = 0%R) by reflexivity. assert (F1 : finite w1) by reflexivity. assert (F0 : finite w0) by reflexivity.
  assert (A1 : (Rabs (B2R w1) <= 10 ^ 60)%R) by (rewrite V, Rabs_pos_eq; lra). assert (A0 : (Rabs (B2R w0) <= 10 ^ 60)%R) by (rewrite Z0, Rabs_R0; lra).
  assert (AX : (Rabs (B2R x) <= 10 ^ 60)%R) by (rewrite Rabs_pos_eq; lra).
  split; [repeat split|]. split; [reflexivity|]. intros [|[|[|i]]] a b f v H; cbn in H; [injection H as <- <- <- <-..|destruct i; discriminate H]; repeat split; auto; lia.
Qed.
(** The limits do not keep their order: a narrow range becomes empty. *)
Theorem C94_range_refuted : exists st st' t fuel a b f v a' b' v', ok_tab 3 st /\ par st 0 = Some ((a, b), f, v) /\ (B2R a < B2R b)%R /\
  table Tvmap 0 3 0 st = Ok t /\ load_par_names scan_lf fuel 3 t [] [] st = Ok st' /\ par st' 0 = Some ((a', b'), f, v') /\ B2R a' = B2R b'.
Proof.
  assert (W := wt_val). assert (K : ok_tab 3 (small_st wt)) by (apply C94_ok; [reflexivity|lra]).
  destruct (reload Tvmap 0 1 0 (small_st wt) (small_st wt) [] [] K (proj1 K)) as (t & fuel0 & E & H). destruct (H fuel0 (le_n _)) as (st' & L & _ & P).
  destruct (P 0 ltac:(cbn; lia)) as (a & b & f & v & v' & PS & FA & FB & _ & PS' & _). cbn in PS. injection PS as <- <- <- <-.
  exists (small_st wt), st', t, fuel0, w0, wt, 0%Z, w0, (reread w0), (reread wt), v'.
  split; [exact K|]. split; [reflexivity|]. split; [exact (proj1 W)|]. split; [exact E|]. split; [exact L|]. split; [exact PS'|].
  assert (T : print_f wt = print_f w0) by (vm_compute; reflexivity).
  assert (S1 := scan_print [] wt [] FB ltac:(constructor) Logic.I). assert (S2 := scan_print [] w0 [] FA ltac:(constructor) Logic.I). rewrite T in S1. rewrite S1 in S2.
  injection S2 as ->. reflexivity.
Qed.
Print Assumptions C94_range_refuted.
