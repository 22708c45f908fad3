(** Property C116: data files written by the Python functions are read as they were
    meant. *)
From Coq Require Import ZArith List Bool Arith Lia Ascii String Reals Lra.
From Verif Require Import CPrelude TagModel ScanModel ScanProofs ScanProofs2 TextModel TextProofs PropScan PyDataModel.
Import ListNotations.
Open Scope nat_scope.

Lemma dec_aux_length fuel : forall n acc, List.length (dec_aux fuel n acc) <= fuel + List.length acc.
Proof.
  induction fuel as [|k IH]; intros n acc; [reflexivity|]. cbn [dec_aux]. destruct (n <? 10)%Z; [cbn; lia|].
  etransitivity; [apply IH|]. cbn. lia.
Qed.
Lemma print_d_length n : (0 <= n < 2 ^ 31)%Z -> List.length (print_d n) <= 32.
Proof.
  intros [L H]. unfold print_d. etransitivity; [apply dec_aux_length|]. cbn [List.length].
  assert (Z.log2 n <= 31)%Z. { destruct (Z.eq_dec n 0) as [->|]; [cbn; lia|]. apply Z.lt_le_incl, Z.log2_lt_pow2; lia. }
  pose proof (Z.log2_nonneg n). lia.
Qed.

Section Data.
Context {U V : Type}.
Variable f : U -> list ascii.
Variable num : list ascii -> V -> Prop.
Variable lf : list ascii -> option (V * list ascii).
Variable ltb : V -> V -> bool.
Hypothesis PN : plain_numerals num.
Hypothesis RN : reads_numbers num lf.
(** what is read back from the text of a number *)
Variable back : U -> V.
Hypothesis FN : forall v, num (f v) (back v).
Notation curve := (@curve U).
Definition back_row (r : U * U * U) : V * V * V := let '(x, y, z) := r in (back x, back y, back z).
Definition back_data (D : list (list curve)) : list (list (list (V * V * V))) := map (map (map back_row)) D.

(** the fields of the header line of a set *)
Definition counts (s : list curve) : list (list ascii) := match s with [] => [] | c :: cs => (BL :: rows_d c) :: map rows_d cs end.
(** what is asked of the data: at least one line in each set, no line empty, numbers of
    rows and sets that are ints, header lines that fit the program's buffer *)
Definition writable (D : list (list curve)) : Prop :=
  (Z.of_nat (List.length D) < 2 ^ 31)%Z /\
  Forall (fun s => s <> [] /\ Forall (fun c => c <> []) (tl s) /\ Forall (fun c => (Z.of_nat (List.length c) < 2 ^ 31)%Z) s /\ List.length (header_line (counts s)) <= 255) D.

Lemma nl_space : space [nl]. Proof. repeat constructor. Qed.
Lemma save_rows c : forall extra rs txt, c <> [] -> space extra -> rows_text num rs txt -> rows_text num (map back_row c ++ rs) (savetxt f c ++ extra ++ txt).
Proof.
  induction c as [|[[x y] z] c IH]; intros extra rs txt N S H; [congruence|].
  unfold savetxt. cbn [map List.concat row_text app back_row].
  destruct c as [|r c].
  - cbn [map List.concat app]. rewrite app_nil_r.
    replace ((f x ++ BL :: f y ++ BL :: f z ++ [nl]) ++ extra ++ txt) with (f x ++ [BL] ++ f y ++ [BL] ++ f z ++ (nl :: extra) ++ txt)
      by (rewrite <- !app_assoc; cbn [app]; rewrite <- !app_assoc; cbn [app]; rewrite <- !app_assoc; reflexivity).
    apply rows_cons; try apply FN; try discriminate; try (repeat constructor; fail); [|left; discriminate|exact H]. constructor; [reflexivity|exact S].
  - replace ((f x ++ BL :: f y ++ BL :: f z ++ [nl]) ++ List.concat (map (row_text f) (r :: c))) with (f x ++ BL :: f y ++ BL :: f z ++ nl :: savetxt f (r :: c))
      by (unfold savetxt; rewrite <- !app_assoc; cbn [app]; rewrite <- !app_assoc; cbn [app]; rewrite <- !app_assoc; reflexivity).
    replace ((f x ++ BL :: f y ++ BL :: f z ++ nl :: savetxt f (r :: c)) ++ extra ++ txt) with (f x ++ [BL] ++ f y ++ [BL] ++ f z ++ [nl] ++ (savetxt f (r :: c) ++ extra ++ txt))
      by (rewrite <- !app_assoc; cbn [app]; rewrite <- !app_assoc; cbn [app]; rewrite <- !app_assoc; reflexivity).
    apply rows_cons; try apply FN; try discriminate; try (repeat constructor; fail); [left; discriminate|]. apply IH; [discriminate|exact S|exact H].
Qed.
(** each curve followed by an empty line; empty curves leave nothing *)
Lemma blank_after cs : rows_text num (List.concat (map (map back_row) cs)) (List.concat (map (fun c => if 0 <? List.length c then savetxt f c ++ [nl] else []) cs)).
Proof.
  induction cs as [|c cs IH]; [constructor|]. cbn [map List.concat]. destruct c as [|r c]; [exact IH|].
  cbn [List.length Nat.ltb Nat.leb]. rewrite <- app_assoc. apply save_rows; [discriminate|apply nl_space|exact IH].
Qed.
(** curves with an empty line between them *)
Lemma blank_between cs : forall c, c <> [] -> Forall (fun c => c <> []) cs ->
  rows_text num (List.concat (map (map back_row) (c :: cs))) (savetxt f c ++ separated f cs).
Proof.
  induction cs as [|d cs IH]; intros c N F.
  - unfold separated. cbn [map List.concat]. pose proof (save_rows c [] [] [] N (Forall_nil _) (rows_nil num)) as H. exact H.
  - inversion F; subst. unfold separated. cbn [map List.concat]. apply (save_rows c [nl]); [exact N|apply nl_space|]. apply IH; assumption.
Qed.
Lemma join_counts (cs : list curve) : forall w, join (w :: map rows_d cs) = w ++ colon_counts cs.
Proof.
  induction cs as [|c cs IH]; intros w; [unfold colon_counts; cbn; rewrite app_nil_r; reflexivity|].
  cbn [map]. rewrite join_cons, IH. unfold colon_counts. cbn [map List.concat app]. reflexivity.
Qed.
Lemma header_counts c cs : header_line (counts (c :: cs)) = HASH :: BL :: rows_d c ++ colon_counts cs ++ [nl].
Proof. unfold header_line, counts. rewrite join_counts. cbn [app]. rewrite <- app_assoc. reflexivity. Qed.
Lemma field_d (c : curve) pre : blank pre -> field (pre ++ rows_d c) (Z.of_nat (List.length c)).
Proof. intros B. exists pre, (rows_d c), []. rewrite app_nil_r. split; [reflexivity|]. split; [exact B|]. split; [apply print_d_ok; lia|constructor]. Qed.

Lemma read_written vmap D body : writable D -> (vmap = true -> Forall (fun s => hd [] s = []) D) ->
  rows_text num (List.concat (List.concat (back_data D))) body ->
  let t := first_line (List.length D) ++ List.concat (map (fun s => header_line (counts s)) D) ++ body in
  (Forall (Forall (time_sorted ltb)) (back_data D) -> read_data lf ltb vmap t = Ok (back_data D)) /\
  (~ Forall (Forall (time_sorted ltb)) (back_data D) -> read_data lf ltb vmap t = Exit).
Proof.
  intros (ND & W) VM RT t.
  assert (T : t = header_text (BL :: print_d (Z.of_nat (List.length D))) (map counts D) ++ body).
  { unfold t, header_text, first_line, header_line at 2. rewrite join_one, map_map. cbn [app]. rewrite <- !app_assoc. reflexivity. }
  rewrite T. apply (C42_data V num lf ltb PN RN vmap (List.length D)); [| | |exact RT].
  - split; [apply map_length|]. split; [|split; [exact ND|split]].
    + exists [BL], (print_d (Z.of_nat (List.length D))), []. rewrite app_nil_r. split; [reflexivity|]. split; [constructor; [left; reflexivity|constructor]|].
      split; [apply print_d_ok; lia|constructor].
    + unfold header_line. rewrite join_one. cbn [List.length]. rewrite app_length. cbn [List.length].
      pose proof (print_d_length (Z.of_nat (List.length D)) ltac:(lia)). cbn [List.length]. lia.
    + unfold back_data. rewrite map_map. clear - W. induction W as [|s D (NE & _ & B & L) W IH]; [constructor|]. cbn [map]. constructor; [|exact IH].
      destruct s as [|c cs]; [congruence|]. split; [|split; [|split; [exact L|discriminate]]].
      * cbn [counts]. unfold curve_counts. cbn [map]. rewrite map_length. constructor.
        -- apply (field_d c [BL]). constructor; [left; reflexivity|constructor].
        -- clear. induction cs as [|d cs IH]; [constructor|]. cbn [map]. constructor; [rewrite map_length; apply (field_d d []); constructor|exact IH].
      * unfold curve_counts. rewrite map_map. apply Forall_forall. intros z Z. apply in_map_iff in Z as (c' & <- & I). rewrite map_length. rewrite Forall_forall in B. apply B, I.
  - unfold back_data. clear - W. induction W as [|s D (NE & P & _) W IH]; [constructor|]. cbn [map]. constructor; [|exact IH].
    destruct s as [|c cs]; [constructor|]. cbn [map tl] in *. clear - P. induction P as [|d cs N P IH]; [constructor|]. cbn [map]. constructor; [destruct d; [congruence|discriminate]|exact IH].
  - intros E. specialize (VM E). unfold back_data. clear - VM. induction VM as [|s D H F IH]; [constructor|]. cbn [map]. constructor; [|exact IH].
    destruct s as [|c cs]; [reflexivity|]. cbn in *. subst. reflexivity.
Qed.

(** ** The data file of the interface *)
Definition given (data : list (list (option curve))) : list (list curve) := map (map (fun c => match c with Some c => c | None => [] end)) data.
Theorem C116_created : forall vmap data, Forall (fun s => 2 <= List.length s) data -> writable (given data) ->
  (vmap = true -> Forall (fun s => hd [] s = []) (given data)) ->
  exists t, create_data_file f data = Ok t /\
    (Forall (Forall (time_sorted ltb)) (back_data (given data)) -> read_data lf ltb vmap t = Ok (back_data (given data))) /\
    (~ Forall (Forall (time_sorted ltb)) (back_data (given data)) -> read_data lf ltb vmap t = Exit).
Proof.
  intros vmap data TWO W VM. unfold create_data_file.
  assert (E : existsb (fun s : list (option curve) => List.length s <? 2) data = false).
  { apply not_true_is_false. intros E. apply existsb_exists in E as (s & I & E). apply Nat.ltb_lt in E. rewrite Forall_forall in TWO. specialize (TWO s I). lia. }
  rewrite E. eexists. split; [reflexivity|].
  assert (H : List.concat (map set_line data) = List.concat (map (fun s => header_line (counts s)) (given data))).
  { unfold given. rewrite map_map. clear - TWO. induction TWO as [|s data L F IH]; [reflexivity|]. cbn [map List.concat]. rewrite IH. f_equal.
    destruct s as [|c cs]; [cbn in L; lia|]. cbn [map]. rewrite header_counts. cbn [set_line].
    assert (C : forall o : option curve, count_of o = rows_d match o with Some c => c | None => [] end) by (intros [o|]; reflexivity).
    rewrite C. f_equal. f_equal. f_equal. f_equal. unfold colon_counts. rewrite map_map. f_equal. apply map_ext. intros o. rewrite C. reflexivity. }
  rewrite H. replace (List.length data) with (List.length (given data)) by apply map_length.
  apply read_written; [exact W|exact VM|].
  assert (B : List.concat (map (fun s => List.concat (map (curve_text f) s)) data)
    = List.concat (map (fun c => if 0 <? List.length c then savetxt f c ++ [nl] else []) (List.concat (given data)))).
  { clear. unfold given. induction data as [|s data IH]; [reflexivity|]. cbn [map List.concat]. rewrite IH, map_app, concat_app. f_equal.
    rewrite map_map. f_equal. apply map_ext. intros [o|]; reflexivity. }
  rewrite B. unfold back_data. rewrite <- concat_map. apply blank_after.
Qed.

(** ** The data file of genmockdata.py *)
Definition all_lines (l : @lines U) : list curve := match l with One c => [c] | Many cs => cs end.
Definition meant (i : @input U) : list (list curve) :=
  match i with
  | Virtual l => [[] :: all_lines l]
  | Single c l => [c :: all_lines l]
  | Sets cs ls => map (fun p => fst p :: all_lines (snd p)) (combine cs ls)
  end.
(** the driving curves, where they are written, have points; an entry of lines for
    each driving curve, entries beyond these are left out *)
Definition driven (i : @input U) : Prop :=
  match i with
  | Virtual _ => True
  | Single c _ => c <> []
  | Sets cs ls => Forall (fun c => c <> []) cs /\ List.length cs <= List.length ls
  end.
Lemma separated_app (a b : list curve) : separated f (a ++ b) = separated f a ++ separated f b.
Proof. unfold separated. rewrite map_app. apply concat_app. Qed.
Lemma colon_one (d : curve) : colon_counts [d] = COLON :: rows_d d.
Proof. unfold colon_counts. cbn. rewrite app_nil_r. reflexivity. Qed.
Lemma separated_one (d : curve) : separated f [d] = nl :: savetxt f d.
Proof. unfold separated. cbn. rewrite app_nil_r. reflexivity. Qed.
Lemma header_ok cs : forall ls, List.length cs <= List.length ls ->
  sets_header cs ls = Ok (List.concat (map (fun s => header_line (counts s)) (meant (Sets cs ls)))).
Proof.
  induction cs as [|c cs IH]; intros ls L; [reflexivity|]. destruct ls as [|l ls]; [cbn in L; lia|]. cbn [sets_header]. rewrite IH by (cbn in L; lia). cbn [bind].
  unfold meant. cbn [combine map List.concat fst snd]. rewrite header_counts. f_equal. cbn [app]. f_equal. f_equal. rewrite <- !app_assoc. f_equal.
  destruct l as [d|ds]; cbn [all_lines]; [rewrite colon_one; cbn [app]; rewrite <- ?app_assoc|rewrite <- ?app_assoc]; reflexivity.
Qed.
Lemma body_ok cs : forall ls first, List.length cs <= List.length ls ->
  sets_body f first cs ls = Ok (let t := separated f (List.concat (meant (Sets cs ls))) in if first then tl t else t).
Proof.
  induction cs as [|c cs IH]; intros ls first L; [destruct first; reflexivity|]. destruct ls as [|l ls]; [cbn in L; lia|]. cbn [sets_body]. rewrite IH by (cbn in L; lia). cbn [bind].
  f_equal. cbv zeta. unfold meant. cbn [combine map List.concat fst snd app].
  assert (E : forall x, separated f (c :: all_lines l ++ x) = nl :: savetxt f c ++ match l with One d => nl :: savetxt f d | Many ds => separated f ds end ++ separated f x).
  { intros x. change (c :: all_lines l ++ x) with ([c] ++ all_lines l ++ x). rewrite !separated_app, separated_one. cbn [app].
    destruct l as [d|ds]; cbn [all_lines]; [rewrite separated_one|]; reflexivity. }
  rewrite E. destruct first; reflexivity.
Qed.
Lemma flat_rows (D : list (list curve)) : List.concat D <> [] -> Forall (fun c => c <> []) (List.concat D) ->
  rows_text num (List.concat (List.concat (back_data D))) (tl (separated f (List.concat D))).
Proof.
  intros N F. unfold back_data.
  assert (E : List.concat (List.concat (map (map (map back_row)) D)) = List.concat (map (map back_row) (@List.concat curve D))) by (rewrite <- concat_map; reflexivity).
  rewrite E. clear E. destruct (List.concat D) as [|c cs]; [congruence|]. inversion F; subst.
  change (tl (separated f (c :: cs))) with (savetxt f c ++ separated f cs). apply blank_between; assumption.
Qed.
Theorem C116_formatted : forall vmap i, driven i -> writable (meant i) ->
  (vmap = true -> Forall (fun s => hd [] s = []) (meant i)) ->
  exists t, format_mica f i = Ok t /\
    (Forall (Forall (time_sorted ltb)) (back_data (meant i)) -> read_data lf ltb vmap t = Ok (back_data (meant i))) /\
    (~ Forall (Forall (time_sorted ltb)) (back_data (meant i)) -> read_data lf ltb vmap t = Exit).
Proof.
  intros vmap i DR W VM.
  assert (FIN : forall body, format_mica f i = Ok (first_line (List.length (meant i)) ++ List.concat (map (fun s => header_line (counts s)) (meant i)) ++ body) ->
     rows_text num (List.concat (List.concat (back_data (meant i)))) body ->
     exists t, format_mica f i = Ok t /\
    (Forall (Forall (time_sorted ltb)) (back_data (meant i)) -> read_data lf ltb vmap t = Ok (back_data (meant i))) /\
    (~ Forall (Forall (time_sorted ltb)) (back_data (meant i)) -> read_data lf ltb vmap t = Exit)).
  { intros body E RT. eexists. split; [exact E|]. apply read_written; assumption. }
  assert (LN : forall s, In s (meant i) -> Forall (fun c => c <> []) (tl s)).
  { intros s I. destruct W as (_ & W). rewrite Forall_forall in W. apply W, I. }
  destruct i as [l|c l|cs ls].
  - pose proof (LN _ (or_introl eq_refl)) as L. cbn [tl] in L.
    apply (FIN (match l with One d => savetxt f d | Many ds => List.concat (map (fun c => savetxt f c ++ [nl]) ds) end)).
    + destruct l as [d|ds]; cbn [format_mica meant all_lines map List.concat List.length]; rewrite header_counts, app_nil_r; f_equal; f_equal.
      * rewrite colon_one. reflexivity.
    + unfold meant, back_data. cbn [map List.concat app]. rewrite app_nil_r. destruct l as [d|ds]; cbn [all_lines] in *.
      * inversion L; subst. pose proof (save_rows d [] [] [] H1 (Forall_nil _) (rows_nil num)) as H. cbn [map List.concat app]. cbn [app] in H. repeat rewrite app_nil_r in H. rewrite app_nil_r. exact H.
      * replace (map (fun c : curve => savetxt f c ++ [nl]) ds) with (map (fun c : curve => if 0 <? List.length c then savetxt f c ++ [nl] else []) ds); [apply blank_after|].
        apply map_ext_in. intros c I. rewrite Forall_forall in L. specialize (L c I). destruct c; [congruence|reflexivity].
  - pose proof (LN _ (or_introl eq_refl)) as L. cbn [tl] in L. cbn in DR.
    apply (FIN (savetxt f c ++ separated f (all_lines l))).
    + destruct l as [d|ds]; cbn [format_mica meant all_lines map List.concat List.length]; rewrite header_counts, app_nil_r; f_equal; f_equal.
      rewrite colon_one, separated_one. reflexivity.
    + pose proof (blank_between (all_lines l) c DR L) as H. unfold meant, back_data. cbn [map List.concat] in *. rewrite app_nil_r. exact H.
  - destruct DR as (NC & LL). cbn [format_mica].
    apply (FIN (tl (separated f (List.concat (meant (Sets cs ls)))))).
    + cbn [format_mica]. rewrite header_ok, body_ok by exact LL. cbn [bind]. f_equal. f_equal. f_equal. unfold meant. rewrite map_length, combine_length. lia.
    + destruct cs as [|c cs].
      { cbn. constructor. }
      apply flat_rows.
      * destruct ls; [cbn in LL; lia|]. cbn. discriminate.
      * apply Forall_concat. apply Forall_forall. intros s I. specialize (LN s I). unfold meant in I. apply in_map_iff in I as ((c0, l0) & <- & I). cbn [fst snd tl] in *.
        constructor; [|exact LN]. apply in_combine_l in I. rewrite Forall_forall in NC. apply NC, I.
Qed.
(** A driving curve without its entry of lines is refused. *)
Theorem C116_missing : forall cs ls, List.length ls < List.length cs -> format_mica f (Sets cs ls) = Exit.
Proof.
  intros cs ls L. cbn [format_mica]. replace (sets_header cs ls) with (@Exit (list ascii)); [reflexivity|]. symmetry.
  revert ls L. induction cs as [|c cs IH]; intros ls L; cbn in L; [lia|]. destruct ls as [|l ls]; [reflexivity|]. cbn [sets_header]. rewrite IH by (cbn in L; lia). reflexivity.
Qed.
End Data.

(** ** Times in days are written by the interface to the day. *)
(** y is x to seven significant digits, as "%e" writes it *)
Open Scope R_scope.
Definition seven_digits (x y : R) : Prop := exists (m : Z) (k : nat), (10 ^ 6 <= Z.abs m < 10 ^ 7)%Z /\
  ((y = IZR m * 10 ^ k /\ Rabs (x - y) <= 10 ^ k / 2) \/ (y = IZR m / 10 ^ k /\ Rabs (x - y) <= / 10 ^ k / 2)).
(** Every time between one and ten million (a Julian date) becomes a whole number. *)
Theorem C116_dates_refuted : forall t y, 1000000 <= t < 10000000 -> seven_digits t y -> exists d : Z, y = IZR d.
Proof.
  intros t y T (m & k & M & H).
  assert (P : 0 < 10 ^ k) by (apply pow_lt; lra).
  destruct H as [(-> & H)|(-> & H)].
  - exists (m * 10 ^ Z.of_nat k)%Z. rewrite mult_IZR, <- pow_IZR. reflexivity.
  - destruct k as [|k]; [exists m; cbn; field|]. exfalso.
    assert (M1 : IZR m <= 9999999) by (apply IZR_le; lia).
    assert (Q : 1 <= 10 ^ k) by (apply pow_R1_Rle; lra). cbn [pow] in *. set (q := 10 ^ k) in *.
    assert (B : t - IZR m / (10 * q) <= / (10 * q) / 2) by (eapply Rle_trans; [apply Rle_abs|exact H]).
    assert (t * (10 * q) <= IZR m + 1 / 2).
    { apply (Rmult_le_compat_r (10 * q)) in B; [|lra]. replace ((t - IZR m / (10 * q)) * (10 * q)) with (t * (10 * q) - IZR m) in B by (field; lra).
      replace (/ (10 * q) / 2 * (10 * q)) with (1 / 2) in B by (field; lra). lra. }
    assert (1000000 * (10 * 1) <= t * (10 * q)) by (apply Rmult_le_compat; lra). lra.
Qed.
Example C116_dates_case : seven_digits 2458000.4 2458000 /\ seven_digits 2457999.6 2458000 /\ seven_digits 58000.4 58000.4.
Proof.
  split; [|split].
  - exists 2458000%Z, 0%nat. split; [lia|]. left. split; [cbn; lra|]. rewrite Rabs_pos_eq; cbn; lra.
  - exists 2458000%Z, 0%nat. split; [lia|]. left. split; [cbn; lra|]. rewrite Rabs_left; cbn; lra.
  - exists 5800040%Z, 2%nat. split; [lia|]. right. split; [cbn; lra|]. replace (58000.4 - 58000.4) with 0 by lra. rewrite Rabs_R0. cbn. lra.
Qed.

(** ** Many lines: a header line of more than 255 characters is not read. *)
Close Scope R_scope.
Definition many (n : nat) : @input Z := Single [(0, 1, 1)]%Z (Many (repeat [(0, 1, 1)]%Z n)).
Theorem C116_long_refuted : exists t, driven (many 127) /\ format_mica print_d (many 127) = Ok t
  /\ Forall (Forall (time_sorted Z.ltb)) (meant (many 127))
  /\ Forall (fun s => s <> [] /\ Forall (fun c => c <> []) s) (meant (many 127))
  /\ read_data dec_lf Z.ltb false t = Exit.
Proof.
  assert (R : forall c n, In c (repeat [(0, 1, 1)]%Z n) -> c = [(0, 1, 1)]%Z) by (intros c n I; apply repeat_spec in I; exact I).
  eexists. split; [discriminate|]. split; [reflexivity|]. split; [|split].
  - constructor; [|constructor]. apply Forall_forall. intros c I. assert (c = [(0, 1, 1)]%Z) as -> by (destruct I as [<-|I]; [reflexivity|apply (R _ _ I)]).
    intros i a b A B. destruct i as [|[|i]]; discriminate.
  - constructor; [|constructor]. split; [discriminate|]. apply Forall_forall. intros c I. assert (c = [(0, 1, 1)]%Z) as -> by (destruct I as [<-|I]; [reflexivity|apply (R _ _ I)]). discriminate.
  - vm_compute. reflexivity.
Qed.
(** Two sets, the first with two lines. *)
Definition two_set_input : @input Z :=
  Sets [[(1, 5, 1); (4, 6, 1)]; [(2, 2, 1)]]%Z [Many [[(2, 7, 1)]; [(3, 8, 1); (5, 9, 1)]]; One [(6, 3, 2)]]%Z.
Example C116_formatted_case :
  format_mica print_d two_set_input
    = Ok (chars ("# 2" ++ LF ++ "# 2:1:2" ++ LF ++ "# 1:1" ++ LF ++ "1 5 1" ++ LF ++ "4 6 1" ++ LF ++ LF ++ "2 7 1" ++ LF ++ LF ++ "3 8 1" ++ LF ++ "5 9 1" ++ LF ++ LF ++ "2 2 1" ++ LF ++ LF ++ "6 3 2" ++ LF)%string)
  /\ read_data dec_lf Z.ltb false (chars ("# 2" ++ LF ++ "# 2:1:2" ++ LF ++ "# 1:1" ++ LF ++ "1 5 1" ++ LF ++ "4 6 1" ++ LF ++ LF ++ "2 7 1" ++ LF ++ LF ++ "3 8 1" ++ LF ++ "5 9 1" ++ LF ++ LF ++ "2 2 1" ++ LF ++ LF ++ "6 3 2" ++ LF)%string)
    = Ok (meant two_set_input)
  /\ driven two_set_input /\ writable (meant two_set_input).
Proof.
  split; [vm_compute; reflexivity|]. split; [vm_compute; reflexivity|]. split; [split; [repeat constructor; discriminate|reflexivity]|].
  split; [reflexivity|]. repeat constructor; try discriminate; cbn; lia.
Qed.
(** A further entry of lines is left out, a missing one refused. *)
Example C116_missing_case :
  driven (Sets [[(1, 5, 1)]]%Z [One [(2, 7, 1)]; One [(6, 3, 2)]]%Z)
  /\ format_mica print_d (Sets [[(1, 5, 1)]]%Z [One [(2, 7, 1)]; One [(6, 3, 2)]]%Z)
    = Ok (chars ("# 1" ++ LF ++ "# 1:1" ++ LF ++ "1 5 1" ++ LF ++ LF ++ "2 7 1" ++ LF)%string)
  /\ format_mica print_d (Sets [[(1, 5, 1)]; [(2, 2, 1)]]%Z [One [(2, 7, 1)]]%Z) = Exit.
Proof.
  split; [split; [repeat constructor; discriminate|cbn; lia]|]. split; [vm_compute; reflexivity|]. apply C116_missing. cbn. lia.
Qed.
Example C116_created_case :
  create_data_file print_d [[None; Some [(2, 7, 1)]]; [None; Some [(3, 8, 1); (5, 9, 1)]]]%Z
    = Ok (chars ("# 2" ++ LF ++ "# 0:1" ++ LF ++ "# 0:2" ++ LF ++ "2 7 1" ++ LF ++ LF ++ "3 8 1" ++ LF ++ "5 9 1" ++ LF ++ LF)%string)
  /\ read_data dec_lf Z.ltb true (chars ("# 2" ++ LF ++ "# 0:1" ++ LF ++ "# 0:2" ++ LF ++ "2 7 1" ++ LF ++ LF ++ "3 8 1" ++ LF ++ "5 9 1" ++ LF ++ LF)%string)
    = Ok [[[]; [(2, 7, 1)]]; [[]; [(3, 8, 1); (5, 9, 1)]]]%Z
  /\ create_data_file print_d [[Some [(2, 7, 1)]]]%Z = Exit.
Proof. repeat split; vm_compute; reflexivity. Qed.
Print Assumptions C116_created.
Print Assumptions C116_formatted.
Print Assumptions C116_missing.
Print Assumptions C116_dates_refuted.
Print Assumptions C116_long_refuted.
