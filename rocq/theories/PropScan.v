(** Properties C42 - C45, C49, C51: header, prior strings, prior file, version.

    Doubles are of any type V.  [num w v] says that the characters w are a
    numeral for v.  What is assumed of %lf is [reads_numbers]: on white space,
    a numeral and then white space, ':', ']' or the end, it gives the value and
    stops after the numeral; and [plain_numerals]: a numeral is not empty and has
    no white space, colon, bracket, '#' or NUL. *)
From Coq Require Import ZArith List Bool Lia Ascii String.
From Verif Require Import CPrelude ListLemmas TagModel TagSpec TagProofs ScanModel ScanProofs ScanProofs2 ScanProofs3.
Import ListNotations.
Open Scope Z_scope.

(** Unsigned decimals are an instance. *)
Definition dec_num (w : list ascii) (v : Z) : Prop := decimal w v /\ v < 2 ^ 31.
Definition dec_lf (s : list ascii) : option (Z * list ascii) := match scan_d s with Ok r => r | _ => None end.
Lemma dec_plain : plain_numerals dec_num.
Proof.
  intros w v [(NE & D & _) _]. split; auto. eapply Forall_impl; [|exact D]. intros c Dc.
  pose proof (digit_nospace c Dc). destruct Dc. split; [assumption|]. repeat split; intros ->; unfold code in *; simpl in *; lia.
Qed.
Lemma dec_reads : reads_numbers dec_num dec_lf.
Proof.
  intros sp w rest v [D B] SP E. unfold dec_lf. rewrite (scan_d_ok sp w rest v); auto.
  destruct rest as [|c r]; [exact I|]. simpl in E. intros Dc. destruct E as [E|[-> | ->]].
  - apply digit_nospace in Dc. congruence.
  - destruct Dc; unfold code in *; simpl in *; lia.
  - destruct Dc; unfold code in *; simpl in *; lia.
Qed.
Definition chars (s : string) : list ascii := list_ascii_of_string s.
Ltac dec := split; [split; [discriminate|split; [repeat (apply Forall_cons; [split; vm_compute; discriminate|]); apply Forall_nil|reflexivity]]|reflexivity].
Ltac decs := repeat (apply Forall2_cons; [dec|]); apply Forall2_nil.

(** Prior strings "[v0:v1:...]": [prior_string ws] for the numerals ws. *)
Definition prior_string (ws : list (list ascii)) : list ascii := OPEN :: colon_list ws.
Example prior_string_ex : prior_string [chars "1"; chars "20"; chars "3"] = chars "[1:20:3]".
Proof. reflexivity. Qed.

Section Prior.
  Context {V : Type}.
  Variable num : list ascii -> V -> Prop.
  Variable lf : list ascii -> option (V * list ascii).
  Hypothesis PN : plain_numerals num.
  Hypothesis RN : reads_numbers num lf.

  Lemma len : forall ws vs, Forall2 num ws vs -> List.length ws = List.length vs.
  Proof. intros ws vs F. induction F; simpl; congruence. Qed.
  Lemma firstn_nth : forall (vs : list V) n i, (i < n)%nat -> nth_error (firstn n vs) i = nth_error vs i.
  Proof. induction vs; intros n i H; destruct n, i; simpl; try lia; auto. apply IHvs. lia. Qed.

  (** ** C45 *)
  Theorem C45_lag : forall G ws vs, (1 <= G)%nat -> Forall2 num ws vs ->
    ((2 * G <= List.length vs)%nat -> exists a, lag_prior lf G (prior_string ws) = Ok a /\ List.length a = (2 * G)%nat /\
        forall k, (k < G)%nat ->
          nth_error a (2 * k) = option_map Some (nth_error vs (2 * k)) /\
          nth_error a (2 * k + 1) = option_map Some (nth_error vs (2 * k + 1))) /\
    ((List.length vs < 2 * G)%nat -> lag_prior lf G (prior_string ws) = Exit).
  Proof.
    intros G ws vs HG F. unfold prior_string. rewrite (lag_ok num lf PN RN G ws vs HG F), (len _ _ F). split; intros L.
    - destruct (Nat.leb_spec (2 * G) (List.length vs)); [|lia]. eexists. split; [reflexivity|].
      rewrite map_length, firstn_length. split; [lia|]. intros k K.
      assert (N : forall i, (i < 2 * G)%nat -> nth_error (map Some (firstn (2 * G) vs)) i = option_map Some (nth_error vs i)).
      { intros i I. rewrite <- (firstn_nth vs (2 * G) i I). rewrite nth_error_map. reflexivity. }
      split; apply N; lia.
    - destruct (Nat.leb_spec (2 * G) (List.length vs)); [lia|reflexivity].
  Qed.
  Theorem C45_width : forall (le0 : V -> bool) (logv : V -> V) G ws vs, (1 <= G)%nat -> Forall2 num ws vs ->
    ((2 * G <= List.length vs)%nat -> (forall i v, (i < 2 * G)%nat -> nth_error vs i = Some v -> le0 v = false) ->
       exists a, width_prior lf le0 logv G (prior_string ws) = Ok a /\ List.length a = (2 * G)%nat /\
        forall k, (k < G)%nat ->
          nth_error a (2 * k) = option_map logv (nth_error vs (2 * k)) /\
          nth_error a (2 * k + 1) = option_map logv (nth_error vs (2 * k + 1))) /\
    ((List.length vs < 2 * G)%nat -> width_prior lf le0 logv G (prior_string ws) = Exit) /\
    (forall i v, (i < 2 * G)%nat -> nth_error vs i = Some v -> le0 v = true -> width_prior lf le0 logv G (prior_string ws) = Exit).
  Proof.
    intros le0 logv G ws vs HG F. unfold width_prior, prior_string. rewrite (lag_ok num lf PN RN G ws vs HG F), (len _ _ F).
    destruct (Nat.leb_spec (2 * G) (List.length vs)) as [L|L]; cbn [bind].
    2: { split; [lia|]. split; reflexivity. }
    rewrite take_logs_ok. split; [|split; [lia|]].
    - intros _ P. replace (existsb le0 (firstn (2 * G) vs)) with false.
      + eexists. split; [reflexivity|]. rewrite map_length, firstn_length. split; [lia|]. intros k K.
        assert (N : forall i, (i < 2 * G)%nat -> nth_error (map logv (firstn (2 * G) vs)) i = option_map logv (nth_error vs i)).
        { intros i I. rewrite <- (firstn_nth vs (2 * G) i I). rewrite nth_error_map. reflexivity. }
        split; apply N; lia.
      + symmetry. apply not_true_iff_false. intros E. apply existsb_exists in E as (v & I & E). apply In_nth_error in I as [i I].
        assert (i < 2 * G)%nat. { apply nth_error_lt in I. rewrite firstn_length in I. lia. }
        rewrite (P i v) in E; [discriminate|auto|]. rewrite <- I. symmetry. apply firstn_nth. auto.
    - intros i v I N E. replace (existsb le0 (firstn (2 * G) vs)) with true; [reflexivity|]. symmetry. apply existsb_exists.
      exists v. split; auto. apply nth_error_In with i. rewrite firstn_nth; auto.
  Qed.

  (** ** C43: set i gets the i-th and the (i+1)-th number. *)
  Theorem C43_actual : forall (half : V -> V) nset ws vs, (1 <= nset)%nat -> Forall2 num ws vs -> (nset < List.length vs)%nat ->
    exists g, gap_prior lf half nset (prior_string ws) = Ok g /\ List.length g = nset /\
      forall i, (i < nset)%nat -> exists c w, nth_error vs i = Some c /\ nth_error vs (i + 1) = Some w /\ nth_error g i = Some (c, half w).
  Proof.
    intros half nset ws vs N F L. exists (chain half nset vs). unfold prior_string.
    rewrite (gap_ok num lf PN RN half nset ws vs N F) by (rewrite (len _ _ F); auto). split; [reflexivity|].
    rewrite chain_length by auto. split; auto. intros i I. destruct (chain_nth half nset vs i L I) as (a & b & H1 & H2 & H3).
    exists a, b. rewrite Nat.add_1_r. auto.
  Qed.
  (** One set: centre and width as written. *)
  Theorem C43_first_set : forall (half : V -> V) nset ws vs c w, (1 <= nset)%nat -> Forall2 num ws (c :: w :: vs) -> (nset < 2 + List.length vs)%nat ->
    exists g, gap_prior lf half nset (prior_string ws) = Ok ((c, half w) :: g).
  Proof.
    intros half nset ws vs c w N F L. destruct (C43_actual half nset ws _ N F) as (g & E & LG & H); [simpl; lia|].
    destruct (H 0%nat) as (c' & w' & H1 & H2 & H3); [lia|]. simpl in H1, H2. injection H1 as <-. injection H2 as <-.
    destruct g as [|x g]; [discriminate|]. simpl in H3. injection H3 as ->. exists g. exact E.
  Qed.

  (** ** C44 *)
  Lemma pad_ok : forall n k (x y : option V) rest, (n * 2 <= List.length rest)%nat -> (1 <= k)%nat ->
    ratio_pad n k 1 ([x; y] ++ List.concat (repeat [x; y] (k - 1)) ++ rest) = Ok ([x; y] ++ List.concat (repeat [x; y] (k - 1 + n)) ++ skipn (n * 2) rest).
  Proof.
    induction n; intros k x y rest L K; [cbn [ratio_pad]; rewrite Nat.add_0_r; reflexivity|].
    destruct rest as [|r0 [|r1 rest]]; simpl in L; try lia. cbn [ratio_pad].
    assert (LEN : List.length (List.concat (repeat [x; y] (k - 1))) = ((k - 1) * 2)%nat).
    { generalize (k - 1)%nat. intros m. induction m; [reflexivity|]. cbn [repeat List.concat]. rewrite app_length, IHm. simpl. lia. }
    set (A := [x; y] ++ List.concat (repeat [x; y] (k - 1))) in *.
    assert (LA : List.length A = (k * 2)%nat) by (unfold A; rewrite app_length, LEN; simpl; lia).
    rewrite (app_assoc [x; y]). fold A.
    assert (PUT : forall (a : list (option V)) z w r m, List.length a = m -> put (a ++ w :: r) m z = Ok (a ++ z :: r)).
    { clear. intros a z w r m <-. unfold put. replace (set_nth (List.length a) z (a ++ w :: r)) with (Some (a ++ z :: r)); [reflexivity|].
      induction a; simpl; auto. rewrite <- IHa. reflexivity. }
    replace ((1 - 1) * 2 + 0)%nat with 0%nat by reflexivity. replace ((1 - 1) * 2 + 1)%nat with 1%nat by reflexivity.
    change (get (A ++ r0 :: r1 :: rest) 0) with (@Ok (option V) x). cbn [bind].
    rewrite (PUT A x r0 (r1 :: rest)) by lia. cbn [bind].
    change (get (A ++ x :: r1 :: rest) 1) with (@Ok (option V) y). cbn [bind].
    replace (A ++ x :: r1 :: rest) with ((A ++ [x]) ++ r1 :: rest) by (rewrite <- app_assoc; reflexivity).
    rewrite (PUT (A ++ [x]) y r1 rest) by (rewrite app_length; simpl; lia). cbn [bind].
    specialize (IHn (S k) x y rest). 
    assert (R : forall m, List.concat (repeat [x; y] (S m)) = List.concat (repeat [x; y] m) ++ [x; y]).
    { clear. induction m; [reflexivity|]. change (repeat [x; y] (S (S m))) with ([x; y] :: repeat [x; y] (S m)). cbn [List.concat]. rewrite IHm at 1. reflexivity. }
    replace (S k - 1)%nat with (S (k - 1)) in IHn by lia. rewrite R in IHn.
    replace ((A ++ [x]) ++ y :: rest) with ([x; y] ++ (List.concat (repeat [x; y] (k - 1)) ++ [x; y]) ++ rest).
    2: { unfold A. rewrite <- !app_assoc. reflexivity. }
    rewrite IHn by lia. replace (S (k - 1) + n)%nat with (k - 1 + S n)%nat by lia. reflexivity.
  Qed.
  (** One pair of numbers a:b : every component gets [log a, log b]. *)
  Theorem C44_one_pair : forall (logv : V -> V) G wa wb a b, (2 <= G)%nat -> num wa a -> num wb b ->
    ratio_prior lf logv G (prior_string [wa; wb]) = Ok (List.concat (repeat [Some (logv a); Some (logv b)] (G - 1))).
  Proof.
    intros logv G wa wb a b HG NA NB. assert (F : Forall2 num [wa; wb] [a; b]) by (repeat constructor; auto).
    unfold ratio_prior, prior_string. rewrite (count_list num PN [wa; wb] _ F). cbn [List.length Nat.sub].
    change ((1 <? 1)%nat || Nat.even 1) with false. cbv iota.
    assert (E0 : repeat None ((G - 1) * 2) = filled ((G - 1) * 2) (@nil V)).
    { unfold filled. cbn [List.length]. rewrite Nat.sub_0_r. reflexivity. }
    rewrite E0. change (1 * 2 - 1)%nat with 1%nat.
    pose proof (ratio_step num lf PN RN logv 0 ((G - 1) * 2) wa [wb] a [] NA) as ST. cbn [List.length] in ST. rewrite ST by lia.
    cbn [ratio_loop bind]. unfold scan_into. destruct (lf_head num lf RN wb [] b NB) as (r & -> & _).
    cbn [app]. pose proof (put_filled ((G - 1) * 2) [logv a] b) as PF. cbn [List.length] in PF. rewrite PF by lia. cbn [bind].
    pose proof (log_filled logv ((G - 1) * 2) [logv a] b) as LF. cbn [List.length] in LF. rewrite LF by lia. cbn [bind app].
    unfold filled. cbn [map List.length].
    pose proof (pad_ok (G - 1 - 1) 1 (Some (logv a)) (Some (logv b)) (repeat None ((G - 1) * 2 - 2))) as P.
    cbn [Nat.sub repeat List.concat app] in P. cbn [app]. rewrite P; [|rewrite repeat_length; lia|lia].
    f_equal. rewrite skipn_all2 by (rewrite repeat_length; lia). rewrite app_nil_r.
    replace (G - 1)%nat with (S (G - 1 - 1)) at 2 by lia. reflexivity.
  Qed.
  (** Two or more pairs: undefined behaviour, whatever the number of components. *)
  Theorem C44_pairs : forall (logv : V -> V) G p ws vs, (2 <= p)%nat -> Forall2 num ws vs -> List.length vs = (2 * p)%nat ->
    ratio_prior lf logv G (prior_string ws) = UB.
  Proof.
    intros logv G p ws vs HP F L. unfold ratio_prior, prior_string. rewrite (count_list num PN ws vs F), (len _ _ F), L.
    assert (EV : ((2 * p - 1 <? 1)%nat || Nat.even (2 * p - 1)) = false).
    { destruct (Nat.ltb_spec (2 * p - 1) 1); [lia|]. replace (2 * p - 1)%nat with (S (2 * (p - 1))) by lia.
      rewrite Nat.even_succ, Nat.odd_mul. reflexivity. }
    rewrite EV.
    assert (E0 : repeat None ((G - 1) * 2) = filled ((G - 1) * 2) (@nil V)).
    { unfold filled. cbn [List.length]. rewrite Nat.sub_0_r. reflexivity. }
    rewrite E0. pose proof (ratio_over num lf PN RN logv ws vs ((2 * p - 1) * 2 - 1) ((G - 1) * 2) [] F) as RO. cbn [List.length] in RO.
    pose proof (len _ _ F). rewrite RO by lia. reflexivity.
  Qed.
  (** An odd count of numbers, or none, stops the program. *)
  Theorem C44_odd : forall (logv : V -> V) G ws vs, Forall2 num ws vs -> Nat.odd (List.length vs) = true ->
    ratio_prior lf logv G (prior_string ws) = Exit.
  Proof.
    intros logv G ws vs F O. unfold ratio_prior, prior_string. rewrite (count_list num PN ws vs F), (len _ _ F).
    destruct (List.length vs) as [|n]; [discriminate|]. rewrite Nat.odd_succ in O. replace (S n - 1)%nat with n by lia. rewrite O, orb_true_r. reflexivity.
  Qed.
End Prior.

Example C45_example : lag_prior dec_lf 2 (chars "[0:10:5:20]") = Ok [Some 0; Some 10; Some 5; Some 20] /\
  lag_prior dec_lf 2 (chars "[0:10:5]") = Exit /\
  width_prior dec_lf (fun v => v <=? 0) (fun v => 100 + v) 1 (chars "[2:9]") = Ok [102; 109] /\
  width_prior dec_lf (fun v => v <=? 0) (fun v => 100 + v) 1 (chars "[0:9]") = Exit /\
  Forall2 dec_num [chars "0"; chars "10"; chars "5"; chars "20"] [0; 10; 5; 20].
Proof. repeat split; try reflexivity. decs. Qed.

(** The intended meaning of a gap prior string fails. *)
Theorem C43_refuted : ~ (forall (pairs : list (Z * Z)) ws,
    Forall2 dec_num ws (flat_map (fun p => [fst p; snd p]) pairs) -> pairs <> [] ->
    gap_prior dec_lf (fun v => v / 2) (List.length pairs) (prior_string ws) = Ok (map (fun p => (fst p, snd p / 2)) pairs)).
Proof.
  intros H. specialize (H [(10, 20); (30, 40)] [chars "10"; chars "20"; chars "30"; chars "40"]).
  assert (F : Forall2 dec_num [chars "10"; chars "20"; chars "30"; chars "40"] [10; 20; 30; 40]) by (decs).
  specialize (H F). assert (N : [(10, 20); (30, 40)] <> []) by discriminate. specialize (H N). vm_compute in H. discriminate H.
Qed.
Example C43_example : gap_prior dec_lf (fun v => v / 2) 2 (chars "[10:20:30:40]") = Ok [(10, 10); (20, 15)].
Proof. reflexivity. Qed.
(** The intended meaning of a ratio prior string fails, for every string of two
    or more pairs. *)
Theorem C44_refuted : exists G pairs ws, Forall2 dec_num ws (flat_map (fun p => [fst p; snd p]) pairs) /\
    (List.length pairs <= G - 1)%nat /\ (1 <= List.length pairs)%nat /\
    ratio_prior dec_lf (fun v => v) G (prior_string ws) = UB.
Proof.
  exists 3%nat, [(1, 2); (3, 4)], [chars "1"; chars "2"; chars "3"; chars "4"]. split; [decs|].
  split; [simpl; lia|]. split; [simpl; lia|]. reflexivity.
Qed.
Example C44_example : ratio_prior dec_lf (fun v => 100 + v) 4 (chars "[1:2]") = Ok [Some 101; Some 102; Some 101; Some 102; Some 101; Some 102] /\
  ratio_prior dec_lf (fun v => v) 4 (chars "[1:2:3]") = Exit /\ ratio_prior dec_lf (fun v => v) 9 (chars "[1:2:3:4:5:6]") = UB.
Proof. repeat split; reflexivity. Qed.

(** ** C42.  A header line is '#', fields separated by ':', newline.  A field is
    a decimal with blanks (spaces, tabs) around it. *)
Definition good_header (nset : nat) (f0 : list ascii) (sets : list (list (list ascii))) (nss : list (list Z)) : Prop :=
  List.length sets = nset /\ field f0 (Z.of_nat nset) /\ Z.of_nat nset < 2 ^ 31 /\ (List.length (header_line [f0]) <= 255)%nat /\
  Forall2 (fun fs ns => Forall2 field fs ns /\ Forall (fun n => n < 2 ^ 31) ns /\ (List.length (header_line fs) <= 255)%nat /\ ns <> []) sets nss.
Definition header_text (f0 : list ascii) (sets : list (list (list ascii))) : list ascii :=
  header_line [f0] ++ List.concat (map header_line sets).

(** What the two passes do to any header: the number of lines is the number of
    positive entries; line j gets the j-th entry, and no value if that is 0. *)
Theorem C42_header : forall vmap nset f0 sets nss body, good_header nset f0 sets nss ->
  (vmap = true -> Forall (fun ns => hd 0 ns = 0) nss) ->
  exists h, read_header vmap (header_text f0 sets ++ body) = Ok (body, h) /\ List.length h = nset /\
    forall i ns, nth_error nss i = Some ns -> exists ls, nth_error h i = Some (Some (hd 0 ns), ls) /\
      List.length ls = List.length (filter (fun n => 0 <? n) (tl ns)) /\
      forall j n, (j < List.length ls)%nat -> nth_error (tl ns) j = Some n -> nth_error ls j = Some (if 0 <? n then Some n else None).
Proof.
  intros vmap nset f0 sets nss body (<- & F0 & B & L & F) VM. unfold header_text. rewrite <- app_assoc.
  rewrite (read_header_ok vmap f0 sets nss body F0 B L F VM). eexists. split; [reflexivity|]. split.
  - rewrite map_length. clear - F. induction F; simpl; congruence.
  - intros i ns N. rewrite nth_error_map, N. cbn [option_map]. eexists. split; [reflexivity|].
    rewrite map_length, firstn_length. fold (pos_count (tl ns)). split.
    + assert (pos_count (tl ns) <= List.length (tl ns))%nat by (unfold pos_count; clear; induction (tl ns) as [|a l IH]; simpl; [lia|destruct (0 <? a); simpl; lia]). lia.
    + intros j n J E. rewrite nth_error_map, firstn_nth by lia. rewrite E. reflexivity.
Qed.
(** Header with positive line entries followed by the rows: the data are read as
    they stand, set by set, continuum first. *)
Definition time_sorted {V} (ltb : V -> V -> bool) (c : list (V * V * V)) : Prop :=
  forall i a b, nth_error c i = Some a -> nth_error c (i + 1) = Some b -> ltb (fst (fst b)) (fst (fst a)) = false.
Lemma ascending_sorted : forall V (ltb : V -> V -> bool) c, ascending ltb c = true <-> time_sorted ltb c.
Proof.
  intros V ltb c. unfold ascending. rewrite negb_true_iff. induction c as [|a c IH].
  - split; [|reflexivity]. intros _ i x y H. destruct i; discriminate.
  - destruct c as [|b c].
    + split; [|reflexivity]. intros _ i x y _ H. destruct i as [|[|i]]; discriminate.
    + cbn [map unsorted] in *. rewrite orb_false_iff, IH. split.
      * intros [H1 H2] i x y X Y. destruct i; [simpl in X, Y; congruence|]. apply (H2 i); auto.
      * intros H. split; [apply (H 0%nat); reflexivity|]. intros i x y X Y. apply (H (S i)); auto.
Qed.
Definition curve_counts {V} (cs : list (list (V * V * V))) : list Z := map (fun c => Z.of_nat (List.length c)) cs.
Theorem C42_data : forall V (num : list ascii -> V -> Prop) lf ltb, plain_numerals num -> reads_numbers num lf ->
  forall vmap nset f0 sets (data : list (list (list (V * V * V)))) txt,
  good_header nset f0 sets (map curve_counts data) ->
  Forall (fun cs => Forall (fun c => c <> []) (tl cs)) data ->
  (vmap = true -> Forall (fun cs => hd [] cs = []) data) ->
  rows_text num (List.concat (List.concat data)) txt ->
  (Forall (Forall (time_sorted ltb)) data -> read_data lf ltb vmap (header_text f0 sets ++ txt) = Ok data) /\
  (~ Forall (Forall (time_sorted ltb)) data -> read_data lf ltb vmap (header_text f0 sets ++ txt) = Exit).
Proof.
  intros V num lf ltb PN RN vmap nset f0 sets data txt (<- & F0 & B & L & F) POS VM RT.
  assert (NE : Forall (fun cs : list (list (V * V * V)) => cs <> []) data).
  { apply Forall_forall. intros cs I E. subst cs. assert (X : In [] (map (@curve_counts V) data)) by (apply in_map_iff; exists []; auto).
    clear - F X. induction F as [|? ? ? ? (_ & _ & _ & H) F IH]; [destruct X|]. destruct X as [X|X]; [subst; congruence|auto]. }
  assert (R : read_data lf ltb vmap (header_text f0 sets ++ txt) = if forallb (forallb (ascending ltb)) data then Ok data else Exit).
  { unfold read_data, header_text. rewrite <- app_assoc. rewrite (read_header_ok vmap f0 sets _ txt F0 B L F).
    - cbn [bind]. rewrite map_map. rewrite <- (read_sets_ok num lf PN RN ltb data txt false RT) by auto. f_equal.
      apply map_ext_in. intros cs I. rewrite Forall_forall in NE, POS. specialize (NE cs I). specialize (POS cs I).
      destruct cs as [|c cs]; [congruence|]. cbn [curve_counts map hd tl] in *. f_equal.
      rewrite known_pos; [rewrite map_map; reflexivity|]. apply Forall_forall. intros z Z. apply in_map_iff in Z as (c' & <- & I').
      rewrite Forall_forall in POS. specialize (POS c' I'). destruct c'; [congruence|]. simpl. lia.
    - intros E. specialize (VM E). apply Forall_forall. intros z I. apply in_map_iff in I as (cs & <- & I).
      rewrite Forall_forall in VM. specialize (VM cs I). destruct cs; [reflexivity|]. simpl in VM. subst. reflexivity. }
  rewrite R. assert (E : forallb (forallb (ascending ltb)) data = true <-> Forall (Forall (time_sorted ltb)) data).
  { rewrite forallb_forall, Forall_forall. split; intros H cs I; specialize (H cs I).
    - rewrite forallb_forall in H. apply Forall_forall. intros c I'. apply ascending_sorted. auto.
    - apply forallb_forall. rewrite Forall_forall in H. intros c I'. apply ascending_sorted. auto. }
  split; intros H.
  - apply E in H. rewrite H. reflexivity.
  - destruct (forallb (forallb (ascending ltb)) data); [exfalso; apply H, E; reflexivity|reflexivity].
Qed.
Definition LF : string := String nl EmptyString.
Example C42_example : read_data dec_lf Z.ltb false
    (chars ("# 1" ++ LF ++ "# 2: 1 :3" ++ LF ++ "1 5 1" ++ LF ++ "4 6 1" ++ LF ++ LF ++ "2 7 1" ++ LF ++ LF ++ "3 8 1" ++ LF ++ "5 8 1" ++ LF ++ "5 9 1" ++ LF)%string)
    = Ok [[[(1, 5, 1); (4, 6, 1)]; [(2, 7, 1)]; [(3, 8, 1); (5, 8, 1); (5, 9, 1)]]] /\
  good_header 1 (chars " 1") [[chars " 2"; chars " 1 "; chars "3"]] (map curve_counts [[[(1, 5, 1); (4, 6, 1)]; [(2, 7, 1)]; [(3, 8, 1); (5, 8, 1); (5, 9, 1)]]]) /\
  header_text (chars " 1") [[chars " 2"; chars " 1 "; chars "3"]] = chars ("# 1" ++ LF ++ "# 2: 1 :3" ++ LF)%string.
Proof.
  split; [vm_compute; reflexivity|]. split; [|reflexivity].
  assert (W : forall b w b' n, blank b -> blank b' -> decimal w n -> field (b ++ w ++ b') n) by (intros; exists b, w, b'; auto).
  assert (B0 : blank []) by constructor. assert (B1 : blank [BL]) by (repeat constructor).
  assert (D : forall c, 48 <= code c <= 57 -> decimal [c] (code c - 48)).
  { intros c Hc. split; [discriminate|]. split; [repeat constructor; apply Hc|]. unfold dec_value. simpl. lia. }
  assert (D1 : decimal (chars "1") 1) by (apply (D "1"%char); vm_compute; split; discriminate).
  assert (D2 : decimal (chars "2") 2) by (apply (D "2"%char); vm_compute; split; discriminate).
  assert (D3 : decimal (chars "3") 3) by (apply (D "3"%char); vm_compute; split; discriminate).
  split; [reflexivity|]. split; [apply (W [BL] (chars "1") [] _ B1 B0 D1)|]. split; [reflexivity|]. split; [simpl; lia|].
  constructor; [|constructor]. split; [|split; [repeat constructor|split; [simpl; lia|discriminate]]].
  constructor; [apply (W [BL] (chars "2") [] _ B1 B0 D2)|]. constructor; [apply (W [BL] (chars "1") [BL] _ B1 B1 D1)|].
  constructor; [apply (W [] (chars "3") [] _ B0 B0 D3)|constructor].
Qed.
(** With a zero entry before another line the second pass leaves the number of
    points of a line unset, and reading goes wrong. *)
Theorem C42_zero_entry_refuted : exists f0 fs, good_header 1 f0 [fs] [[2; 0; 1]] /\
  read_header false (header_text f0 [fs]) = Ok ([], [(Some 2, [None])]) /\
  forall V lf (ltb : V -> V -> bool) body, read_data lf ltb false (header_text f0 [fs] ++ body) <> Ok [[]] /\
    forall d, read_data lf ltb false (header_text f0 [fs] ++ body) <> Ok d.
Proof.
  exists (chars "1"), [chars "2"; chars "0"; chars "1"].
  assert (D : forall c, 48 <= code c <= 57 -> field [c] (code c - 48)).
  { intros c Hc. exists [], [c], []. split; [reflexivity|]. split; [constructor|]. split; [|constructor].
    split; [discriminate|]. split; [repeat constructor; apply Hc|]. unfold dec_value. simpl. lia. }
  assert (D1 : field (chars "1") 1) by (apply (D "1"%char); vm_compute; split; discriminate).
  assert (D2 : field (chars "2") 2) by (apply (D "2"%char); vm_compute; split; discriminate).
  assert (D0 : field (chars "0") 0) by (apply (D "0"%char); vm_compute; split; discriminate).
  assert (GH : good_header 1 (chars "1") [[chars "2"; chars "0"; chars "1"]] [[2; 0; 1]]).
  { split; [reflexivity|]. split; [exact D1|]. split; [reflexivity|]. split; [simpl; lia|].
    constructor; [|constructor]. split; [auto|]. split; [repeat constructor|split; [simpl; lia|discriminate]]. }
  split; [exact GH|]. split; [reflexivity|]. intros V lf ltb body.
  assert (R : forall d, read_data lf ltb false (header_text (chars "1") [[chars "2"; chars "0"; chars "1"]] ++ body) <> Ok d).
  { intros d. unfold read_data, header_text. rewrite <- app_assoc. destruct GH as (_ & G1 & G2 & G3 & G4).
    rewrite (read_header_ok false (chars "1") [[chars "2"; chars "0"; chars "1"]] [[2; 0; 1]] body D1 eq_refl) by (auto; discriminate).
    cbn [bind map hd tl read_sets]. change (map known (firstn (pos_count [0; 1]) [0; 1])) with [@None Z].
    cbn [read_curves]. destruct (read_curve lf ltb (Some 2) body false) as [[[f' e'] l']| | |]; cbn [bind read_curves read_curve]; discriminate. }
  split; [apply R|exact R].
Qed.

(** ** C49.  A record line has an index, two words, minimum, maximum, fix flag,
    value.  A file of record lines sets each named parameter to its last record
    and leaves the others; it terminates. *)
Section PriorFile.
  Context {V : Type}.
  Variable num : list ascii -> V -> Prop.
  Variable lf : list ascii -> option (V * list ascii).
  Hypothesis PN : plain_numerals num.
  Hypothesis RN : reads_numbers num lf.
  Theorem C49_records : forall rs ls n st str0 buf0, Forall2 (record_line num) rs ls -> Forall (fun r => r_idx r < n) rs -> wf_state n st ->
    exists fuel0, forall fuel, (fuel0 <= fuel)%nat -> exists st', load_par_names lf fuel n (text ls) str0 buf0 st = Ok st' /\ wf_state n st' /\
      forall k, par st' k = match last_for k rs with Some r => Some ((r_min r, r_max r), r_fix r, r_val r) | None => par st k end.
  Proof.
    intros rs ls n st str0 buf0 F B W. exists (List.length rs). intros fuel L.
    destruct (load_records num lf PN RN rs ls F n [] (fuel - List.length rs) st str0 buf0 B W) as (st' & s' & b' & W' & P & E).
    rewrite app_nil_r in E. replace (List.length rs + (fuel - List.length rs))%nat with fuel in E by lia.
    exists st'. rewrite E, load_end. auto.
  Qed.
  (** An index that is too large stops the program. *)
  Theorem C49_bad_index : forall rs ls n st str0 buf0 r l rest fuel, Forall2 (record_line num) rs ls -> Forall (fun r => r_idx r < n) rs ->
    wf_state n st -> record_line num r l -> n <= r_idx r -> (List.length rs < fuel)%nat ->
    load_par_names lf fuel n (text ls ++ l ++ nl :: rest) str0 buf0 st = Exit.
  Proof.
    intros rs ls n st str0 buf0 r l rest fuel F B W RL BAD L.
    destruct (load_records num lf PN RN rs ls F n (l ++ nl :: rest) (fuel - List.length rs) st str0 buf0 B W) as (st' & s' & b' & W' & P & E).
    replace (List.length rs + (fuel - List.length rs))%nat with fuel in E by lia. rewrite E.
    replace (fuel - List.length rs)%nat with (S (fuel - List.length rs - 1)) by lia. apply (load_bad num lf PN RN) with r; auto.
  Qed.
  (** A comment or blank line anywhere after record lines: the loop never ends. *)
  Theorem C49_comment_loops : forall rs ls n st str0 buf0 l rest, Forall2 (record_line num) rs ls -> Forall (fun r => r_idx r < n) rs ->
    wf_state n st -> comment_line l \/ blank_line l ->
    forall fuel, load_par_names lf (List.length rs + fuel) n (text ls ++ l ++ nl :: rest) str0 buf0 st = Stuck.
  Proof.
    intros rs ls n st str0 buf0 l rest F B W C fuel.
    destruct (load_records num lf PN RN rs ls F n (l ++ nl :: rest) fuel st str0 buf0 B W) as (st' & s' & b' & W' & P & E).
    rewrite E. apply load_stuck; auto.
  Qed.
  (** A last line without newline has no effect. *)
  Theorem C49_unterminated_line_ignored : forall rs ls n st str0 buf0 l, Forall2 (record_line num) rs ls -> Forall (fun r => r_idx r < n) rs ->
    wf_state n st -> ~ In nl l -> (List.length l <= 254)%nat ->
    exists st', load_par_names lf (List.length rs) n (text ls ++ l) str0 buf0 st = Ok st' /\
      forall k, par st' k = match last_for k rs with Some r => Some ((r_min r, r_max r), r_fix r, r_val r) | None => par st k end.
  Proof.
    intros rs ls n st str0 buf0 l F B W NL LL.
    destruct (load_records num lf PN RN rs ls F n l 0 st str0 buf0 B W) as (st' & s' & b' & W' & P & E).
    rewrite Nat.add_0_r in E. exists st'. rewrite E, load_last by auto. auto.
  Qed.
End PriorFile.
(** Full claim: it fails for a file with a comment line. *)
Theorem C49_refuted : exists f, forall fuel str0 buf0 (st : @pstate Z), load_par_names dec_lf fuel 2 f str0 buf0 st = Stuck.
Proof.
  exists (chars ("# index name type min max fix value" ++ LF ++ "0 a UNIFORM 1 9 0 5" ++ LF)%string). intros fuel str0 buf0 st.
  apply (load_stuck dec_lf fuel 2 (chars "# index name type min max fix value") (chars ("0 a UNIFORM 1 9 0 5" ++ LF)%string)). left.
  split; [exists [], (chars " index name type min max fix value"); split; [reflexivity|constructor]|].
  split; [|split].
  - intros I. repeat (destruct I as [I|I]; [discriminate I|]). destruct I.
  - intros I. repeat (destruct I as [I|I]; [discriminate I|]). destruct I.
  - vm_compute. repeat constructor.
Qed.
Example C49_example : load_par_names dec_lf 9 3 (chars ("  2 lag UNIFORM 1 9 1 5" ++ LF ++ "0 a LOG 3 4 0 0 " ++ LF)%string) [] []
    (mkps [(7, 8); (7, 8); (7, 8)] [0; 0; 0] [6; 6; 6]) = Ok (mkps [(3, 4); (7, 8); (1, 9)] [0; 0; 1] [0; 6; 5]) /\
  record_line dec_num (mkprec 2 1 9 1 5) (chars "  2 lag UNIFORM 1 9 1 5") /\
  record_line dec_num (mkprec 7 3 4 0 0) (chars "7 a LOG 3 4 0 0 ").
Proof.
  split; [vm_compute; reflexivity|]. 
  assert (D : forall c, 48 <= code c <= 57 -> decimal [c] (code c - 48)).
  { intros c Hc. split; [discriminate|]. split; [repeat constructor; apply Hc|]. unfold dec_value. simpl. lia. }
  assert (SP : space [BL]) by (repeat constructor).
  split.
  - exists [BL; BL], (chars "2"), [BL], (chars "lag"), [BL], (chars "UNIFORM"), [BL], (chars "1"), [BL], (chars "9"), [BL], (chars "1"), [BL], (chars "5"), [].
    split; [reflexivity|]. split; [repeat constructor|]. split; [apply (D "2"%char); vm_compute; split; discriminate|]. split; [reflexivity|].
    split; [split; [discriminate|repeat constructor]|]. split; [split; [discriminate|repeat constructor]|].
    split; [dec|]. split; [dec|]. split; [apply (D "1"%char); vm_compute; split; discriminate|]. split; [reflexivity|].
    split; [dec|]. split; [constructor|]. split; [repeat constructor; discriminate|].
    split; [|split; [|vm_compute; repeat constructor]]; intros I; repeat (destruct I as [I|I]; [discriminate I|]); destruct I.
  - exists [], (chars "7"), [BL], (chars "a"), [BL], (chars "LOG"), [BL], (chars "3"), [BL], (chars "4"), [BL], (chars "0"), [BL], (chars "0"), [BL].
    split; [reflexivity|]. split; [repeat constructor|]. split; [apply (D "7"%char); vm_compute; split; discriminate|]. split; [reflexivity|].
    split; [split; [discriminate|repeat constructor]|]. split; [split; [discriminate|repeat constructor]|].
    split; [dec|]. split; [dec|]. split; [apply (D "0"%char); vm_compute; split; discriminate|]. split; [reflexivity|].
    split; [dec|]. split; [repeat constructor|]. split; [repeat constructor; discriminate|].
    split; [|split; [|vm_compute; repeat constructor]]; intros I; repeat (destruct I as [I|I]; [discriminate I|]); destruct I.
Qed.

(** ** C51.  Lexicographic comparison of versions. *)
Definition version_cmp (v lib : Z * Z * Z) : Z :=
  let '(a, b, c) := v in let '(A, B, C) := lib in
  match a ?= A with Gt => 1 | Lt => -1 | Eq => match b ?= B with Gt => 1 | Lt => -1 | Eq => match c ?= C with Gt => 1 | Lt => -1 | Eq => 0 end end end.
Definition version_string (v : Z * Z * Z) (s : list ascii) : Prop :=
  let '(a, b, c) := v in exists wa wb wc, s = wa ++ DOT :: wb ++ DOT :: wc /\ decimal wa a /\ decimal wb b /\ decimal wc c /\
  a < 2 ^ 31 /\ b < 2 ^ 31 /\ c < 2 ^ 31.
(** The check is right unless major and minor agree and the patch is lower; then
    it says "equal". *)
Theorem C51_actual : forall v lib s, version_string v s ->
  check_version_of lib s = Ok (if (fst (fst v) =? fst (fst lib)) && (snd (fst v) =? snd (fst lib)) && (snd v <? snd lib) then 0 else version_cmp v lib).
Proof.
  intros [[a b] c] [[A B] C] s (wa & wb & wc & -> & Da & Db & Dc & Ba & Bb & Bc). unfold check_version_of, scan_version.
  assert (ND : forall r, no_digit (DOT :: r)) by (intros r [X Y]; unfold code in *; simpl in *; lia).
  assert (SD : forall w r n, decimal w n -> n < 2 ^ 31 -> no_digit r -> scan_d (w ++ r) = Ok (Some (n, r))).
  { intros. apply (scan_d_ok [] w r n); auto. constructor. }
  rewrite (SD wa _ a) by auto. cbn [bind]. change (lit DOT (DOT :: wb ++ DOT :: wc)) with (Some (wb ++ DOT :: wc)). cbv iota.
  rewrite (SD wb _ b) by auto. cbn [bind]. change (lit DOT (DOT :: wc)) with (Some wc). cbv iota.
  pose proof (SD wc [] c Dc Bc I) as E. rewrite app_nil_r in E. rewrite E. cbn [bind].
  cbn [fst snd]. unfold version_cmp.
  destruct (Z.compare_spec a A), (Z.compare_spec b B), (Z.compare_spec c C);
    repeat match goal with
           | |- context [?x <? ?y] => destruct (Z.ltb_spec x y)
           | |- context [?x =? ?y] => destruct (Z.eqb_spec x y)
           end; cbn [andb]; try reflexivity; exfalso; lia.
Qed.
Theorem C51_otherwise : forall v lib s, version_string v s -> ~ (fst v = fst lib /\ snd v < snd lib) -> check_version_of lib s = Ok (version_cmp v lib).
Proof.
  intros [[a b] c] [[A B] C] s VS N. rewrite (C51_actual (a, b, c) (A, B, C) s VS). cbn [fst snd] in *.
  destruct (Z.eqb_spec a A), (Z.eqb_spec b B), (Z.ltb_spec c C); try reflexivity. exfalso. apply N. subst. auto.
Qed.
Theorem C51_refuted : exists v lib s, version_string v s /\ version_cmp v lib = -1 /\ check_version_of lib s = Ok 0.
Proof.
  exists (0, 1, 2), (0, 1, 3), (chars "0.1.2"). split; [|split; reflexivity].
  assert (D : forall c, 48 <= code c <= 57 -> decimal [c] (code c - 48)).
  { intros c Hc. split; [discriminate|]. split; [repeat constructor; apply Hc|]. unfold dec_value. simpl. lia. }
  exists (chars "0"), (chars "1"), (chars "2"). split; [reflexivity|].
  split; [apply (D "0"%char); vm_compute; split; discriminate|]. split; [apply (D "1"%char); vm_compute; split; discriminate|].
  split; [apply (D "2"%char); vm_compute; split; discriminate|]. repeat split.
Qed.
Example C51_example : check_version (chars "0.1.0") = Ok 0 /\ check_version (chars "1.0.0") = Ok 1 /\ check_version (chars "0.0.9") = Ok (-1) /\
  check_version (chars "0.1.-1") = Ok 0.
Proof. repeat split; reflexivity. Qed.

Print Assumptions C45_lag.
Print Assumptions C45_width.
Print Assumptions C43_actual.
Print Assumptions C43_first_set.
Print Assumptions C43_refuted.
Print Assumptions C44_one_pair.
Print Assumptions C44_pairs.
Print Assumptions C44_odd.
Print Assumptions C44_refuted.
Print Assumptions C42_header.
Print Assumptions C42_data.
Print Assumptions C42_zero_entry_refuted.
Print Assumptions C49_records.
Print Assumptions C49_bad_index.
Print Assumptions C49_comment_loops.
Print Assumptions C49_unterminated_line_ignored.
Print Assumptions C49_refuted.
Print Assumptions C51_actual.
Print Assumptions C51_otherwise.
Print Assumptions C51_refuted.
