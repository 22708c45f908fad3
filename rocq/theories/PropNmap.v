(** Property C91: the null mode reads every light curve as a set of its own.

    The notions of a header and of the text of the rows are those of C42. *)
From Coq Require Import ZArith List Bool Lia Ascii String.
From Verif Require Import CPrelude ListLemmas TagModel TagSpec TagProofs ScanModel ScanProofs ScanProofs2 ScanProofs3 PropScan NmapModel NmapProofs.
Import ListNotations.
Open Scope Z_scope.

(** What is wanted: the curves of the file in their order, each alone in a set;
    a line without points gives none. *)
Definition is_empty {A} (l : list A) : bool := match l with [] => true | _ => false end.
Definition alone {V} (data : list (list (list (V * V * V)))) : list (list (list (V * V * V))) :=
  map (fun c => [c]) (flat_map (fun cs => match cs with [] => [] | con :: lines => con :: filter (fun c => negb (is_empty c)) lines end) data).
(** every header line of a set has a ':' *)
Definition with_colon (sets : list (list (list ascii))) : Prop := Forall (fun fs => In COLON (header_line fs)) sets.

Lemma colon_entry : forall fs ns, set_ok fs ns -> (In COLON (header_line fs) <-> has_entry fs).
Proof.
  intros fs ns (F & _ & _ & NE). unfold has_entry. destruct F as [|f0 n0 fs ns F0 F]; [congruence|]. destruct fs as [|f fs].
  - split; [|simpl; lia]. intros I. exfalso. unfold header_line in I. rewrite join_one in I.
    destruct I as [I|I]; [discriminate I|]. apply in_app_iff in I as [I|[I|[]]]; [|discriminate I].
    pose proof (quiet_nc _ (field_quiet _ _ F0)) as Q. rewrite List.Forall_forall in Q. apply Q in I. congruence.
  - split; [simpl; lia|]. intros _. unfold header_line. rewrite join_cons. right. rewrite <- app_assoc. apply in_or_app. right. left. reflexivity.
Qed.
Lemma colon_entries : forall sets nss, Forall2 set_ok sets nss -> (with_colon sets <-> Forall has_entry sets).
Proof.
  intros sets nss F. induction F as [|fs ns sets nss H F IH]; [split; constructor|].
  split; intros X; inversion X; subst; constructor; try (apply IH; assumption); eapply colon_entry; eauto.
Qed.
Lemma announced_curves : forall V (data : list (list (list (V * V * V)))), Forall (fun cs => cs <> []) data ->
  map (fun n : option Z => (n, [])) (map Some (List.concat (map announced (map curve_counts data)))) =
  map (fun cs : list (list (V * V * V)) => (Some (Z.of_nat (List.length (hd [] cs))), map (fun c => Some (Z.of_nat (List.length c))) (tl cs))) (alone data).
Proof.
  intros V data NE. unfold alone. rewrite !map_map. cbn [hd tl map].
  induction NE as [|cs data N0 NE IH]; [reflexivity|]. cbn [map List.concat flat_map]. rewrite !map_app, IH. f_equal.
  destruct cs as [|c cs]; [congruence|]. unfold announced, curve_counts. cbn [map hd tl]. f_equal.
  clear. induction cs as [|c cs IH]; [reflexivity|]. cbn [map filter].
  destruct c; cbn [is_empty negb List.length]; [exact IH|]. destruct (Z.ltb_spec 0 (Z.of_nat (S (List.length c)))) as [_|X]; [|lia].
  cbn [map]. f_equal. exact IH.
Qed.
Lemma alone_rows : forall V (data : list (list (list (V * V * V)))), List.concat (List.concat (alone data)) = List.concat (List.concat data).
Proof.
  intros V data. unfold alone. induction data as [|cs data IH]; [reflexivity|].
  cbn [flat_map]. rewrite map_app, !concat_app, IH. cbn [List.concat]. rewrite concat_app. f_equal.
  destruct cs as [|c cs]; [reflexivity|]. cbn [map List.concat app]. f_equal.
  induction cs as [|d cs IHc]; [reflexivity|]. cbn [filter]. destruct d; cbn [is_empty negb]; [exact IHc|].
  cbn [map List.concat app]. rewrite IHc. reflexivity.
Qed.
Lemma alone_sorted : forall V ltb (data : list (list (list (V * V * V)))),
  forallb (forallb (ascending ltb)) (alone data) = true <-> Forall (Forall (time_sorted ltb)) data.
Proof.
  intros V ltb data. unfold alone. induction data as [|cs data IH]; [split; [constructor|reflexivity]|].
  cbn [flat_map]. rewrite map_app, forallb_app, andb_true_iff, IH.
  assert (E : forallb (forallb (ascending ltb)) (map (fun c => [c]) (match cs with [] => [] | con :: lines => con :: filter (fun c => negb (is_empty c)) lines end)) = true
              <-> Forall (time_sorted ltb) cs).
  { destruct cs as [|c cs]; [split; [constructor|reflexivity]|]. cbn [map forallb]. rewrite andb_true_r, andb_true_iff, ascending_sorted.
    assert (E : forallb (forallb (ascending ltb)) (map (fun c => [c]) (filter (fun c => negb (is_empty c)) cs)) = true <-> Forall (time_sorted ltb) cs).
    { induction cs as [|d cs IHc]; [split; [constructor|reflexivity]|]. cbn [filter]. destruct d as [|r d]; cbn [is_empty negb].
      - rewrite IHc. split; [intros X; constructor; auto|intros X; inversion X; auto].
        intros i a b A. destruct i; discriminate A.
      - cbn [map forallb]. rewrite andb_true_r, andb_true_iff, ascending_sorted, IHc. split; [intros [X Y]; constructor; auto|intros X; inversion X; auto]. }
    rewrite E. split; [intros [X Y]; constructor; auto|intros X; inversion X; auto]. }
  rewrite E. split; [intros [X Y]; constructor; auto|intros X; inversion X; auto].
Qed.

(** ** C91 *)
Theorem C91_curves : forall V (num : list ascii -> V -> Prop) lf ltb, plain_numerals num -> reads_numbers num lf ->
  forall nset f0 sets (data : list (list (list (V * V * V)))) txt,
  good_header nset f0 sets (map curve_counts data) -> with_colon sets ->
  rows_text num (List.concat (List.concat data)) txt ->
  (Forall (Forall (time_sorted ltb)) data -> read_data_nmap lf ltb (header_text f0 sets ++ txt) = Ok (alone data)) /\
  (~ Forall (Forall (time_sorted ltb)) data -> read_data_nmap lf ltb (header_text f0 sets ++ txt) = Exit).
Proof.
  intros V num lf ltb PN RN nset f0 sets data txt (<- & F0 & B & L & F) WC RT.
  assert (NE : Forall (fun cs : list (list (V * V * V)) => cs <> []) data).
  { apply Forall_forall. intros cs I E. subst cs. assert (X : In [] (map (@curve_counts V) data)) by (apply in_map_iff; exists []; auto).
    clear - F X. induction F as [|? ? ? ? (_ & _ & _ & H) F IH]; [destruct X|]. destruct X as [X|X]; [subst; congruence|auto]. }
  assert (R : read_data_nmap lf ltb (header_text f0 sets ++ txt) = if forallb (forallb (ascending ltb)) (alone data) then Ok (alone data) else Exit).
  { unfold read_data_nmap, header_text. rewrite <- app_assoc.
    rewrite (nmap_header_ok f0 sets _ txt F0 B L F) by (apply (colon_entries _ _ F); exact WC). cbn [bind].
    rewrite announced_curves by exact NE. apply (read_sets_ok num lf PN RN ltb); [rewrite alone_rows; exact RT|reflexivity|].
    unfold alone. apply Forall_forall. intros x I. apply in_map_iff in I as (c & <- & _). discriminate. }
  rewrite R. pose proof (alone_sorted V ltb data) as E. split; intros H.
  - apply E in H. rewrite H. reflexivity.
  - destruct (forallb (forallb (ascending ltb)) (alone data)); [exfalso; apply H, E; reflexivity|reflexivity].
Qed.
(** One set with a line, one without points in its first line. *)
Example C91_example : read_data_nmap dec_lf Z.ltb
    (chars ("# 2" ++ LF ++ "# 2: 1" ++ LF ++ "# 1:0 : 1" ++ LF ++ "1 5 1" ++ LF ++ "4 6 1" ++ LF ++ LF ++ "2 7 1" ++ LF ++ LF ++ "3 8 1" ++ LF ++ LF ++ "5 9 1" ++ LF)%string)
    = Ok (alone [[[(1, 5, 1); (4, 6, 1)]; [(2, 7, 1)]]; [[(3, 8, 1)]; []; [(5, 9, 1)]]]) /\
  alone [[[(1, 5, 1); (4, 6, 1)]; [(2, 7, 1)]]; [[(3, 8, 1)]; []; [(5, 9, 1)]]] = [[[(1, 5, 1); (4, 6, 1)]]; [[(2, 7, 1)]]; [[(3, 8, 1)]]; [[(5, 9, 1)]]] /\
  good_header 2 (chars " 2") [[chars " 2"; chars " 1"]; [chars " 1"; chars "0 "; chars " 1"]] (map curve_counts [[[(1, 5, 1); (4, 6, 1)]; [(2, 7, 1)]]; [[(3, 8, 1)]; []; [(5, 9, 1)]]]) /\
  with_colon [[chars " 2"; chars " 1"]; [chars " 1"; chars "0 "; chars " 1"]] /\
  header_text (chars " 2") [[chars " 2"; chars " 1"]; [chars " 1"; chars "0 "; chars " 1"]] = chars ("# 2" ++ LF ++ "# 2: 1" ++ LF ++ "# 1:0 : 1" ++ LF)%string.
Proof.
  split; [vm_compute; reflexivity|]. split; [reflexivity|]. split; [|split; [repeat constructor; simpl; tauto|reflexivity]].
  assert (W : forall b w b' n, blank b -> blank b' -> decimal w n -> field (b ++ w ++ b') n) by (intros; exists b, w, b'; auto).
  assert (B0 : blank []) by constructor. assert (B1 : blank [BL]) by (repeat constructor).
  assert (D : forall c, 48 <= code c <= 57 -> decimal [c] (code c - 48)).
  { intros c Hc. split; [discriminate|]. split; [repeat constructor; apply Hc|]. unfold dec_value. simpl. lia. }
  assert (D0 : decimal (chars "0") 0) by (apply (D "0"%char); vm_compute; split; discriminate).
  assert (D1 : decimal (chars "1") 1) by (apply (D "1"%char); vm_compute; split; discriminate).
  assert (D2 : decimal (chars "2") 2) by (apply (D "2"%char); vm_compute; split; discriminate).
  split; [reflexivity|]. split; [apply (W [BL] (chars "2") [] _ B1 B0 D2)|]. split; [reflexivity|]. split; [simpl; lia|].
  constructor; [|constructor; [|constructor]]; (split; [|split; [repeat constructor|split; [simpl; lia|discriminate]]]).
  - constructor; [apply (W [BL] (chars "2") [] _ B1 B0 D2)|]. constructor; [apply (W [BL] (chars "1") [] _ B1 B0 D1)|constructor].
  - constructor; [apply (W [BL] (chars "1") [] _ B1 B0 D1)|]. constructor; [apply (W [] (chars "0") [BL] _ B0 B1 D0)|].
    constructor; [apply (W [BL] (chars "1") [] _ B1 B0 D1)|constructor].
Qed.
(** A header with a set that has no ':' is never read, whatever follows: the
    first pass writes through a null pointer. *)
Theorem C91_bare : forall nset f0 sets nss, good_header nset f0 sets nss -> ~ with_colon sets ->
  forall V lf (ltb : V -> V -> bool) body, read_data_nmap lf ltb (header_text f0 sets ++ body) = UB.
Proof.
  intros nset f0 sets nss (<- & F0 & B & L & F) WC V lf ltb body. unfold read_data_nmap, header_text. rewrite <- app_assoc.
  rewrite (nmap_header_bare f0 sets nss body F0 B L F); [reflexivity|]. intros H. apply WC, (colon_entries _ _ F), H.
Qed.
(** The header of a file with only a continuum, which the other modes read. *)
Theorem C91_bare_refuted : exists f0 fs txt, good_header 1 f0 [fs] [[1]] /\
  read_data dec_lf Z.ltb false (header_text f0 [fs] ++ txt) = Ok [[[(1, 5, 1)]]] /\
  read_data_nmap dec_lf Z.ltb (header_text f0 [fs] ++ txt) = UB.
Proof.
  exists (chars "1"), [chars "1"], (chars "1 5 1"). split; [|split; vm_compute; reflexivity].
  assert (D1 : field (chars "1") 1).
  { exists [], (chars "1"), []. split; [reflexivity|]. split; [constructor|]. split; [|constructor].
    split; [discriminate|]. split; [repeat constructor; vm_compute; discriminate|]. reflexivity. }
  split; [reflexivity|]. split; [exact D1|]. split; [reflexivity|]. split; [simpl; lia|].
  constructor; [|constructor]. split; [auto|]. split; [repeat constructor|split; [simpl; lia|discriminate]].
Qed.
(** An empty continuum is kept as a set without points, though an empty line is
    not. *)
Theorem C91_empty_refuted : exists f0 fs txt, good_header 1 f0 [fs] [[0; 1]] /\
  read_data_nmap dec_lf Z.ltb (header_text f0 [fs] ++ txt) = Ok [[[]]; [[(1, 5, 1)]]].
Proof.
  exists (chars "1"), [chars "0"; chars "1"], (chars "1 5 1"). split; [|vm_compute; reflexivity].
  assert (D1 : field (chars "1") 1).
  { exists [], (chars "1"), []. split; [reflexivity|]. split; [constructor|]. split; [|constructor].
    split; [discriminate|]. split; [repeat constructor; vm_compute; discriminate|]. reflexivity. }
  assert (D0 : field (chars "0") 0).
  { exists [], (chars "0"), []. split; [reflexivity|]. split; [constructor|]. split; [|constructor].
    split; [discriminate|]. split; [repeat constructor; vm_compute; discriminate|]. reflexivity. }
  split; [reflexivity|]. split; [exact D1|]. split; [reflexivity|]. split; [simpl; lia|].
  constructor; [|constructor]. split; [auto|]. split; [repeat constructor|split; [simpl; lia|discriminate]].
Qed.
Print Assumptions C91_curves.
Print Assumptions C91_bare.
Print Assumptions C91_bare_refuted.
Print Assumptions C91_empty_refuted.
