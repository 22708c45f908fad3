(** Property C118: the columns of the posterior sample are named after the
    parameters. *)
From Coq Require Import ZArith Reals Lra String List Bool Lia Ascii.
From Flocq Require Import Core BinarySingleNaN.
From Verif Require Import CPrelude ListLemmas TagModel TagSpec TagProofs ScanModel ScanProofs ScanProofs2 TextModel TextProofs TextReal TextSci SampTextModel PropSampText LevTextModel LevTextProofs PropLevText TabModel PropTab PyNamesModel.
Import ListNotations.
Open Scope nat_scope.

(** ** What the columns should be called *)
(** Column i, with nv blocks of variability parameters and g components: the
    block or line it belongs to stands at the end of its name. *)
Inductive titled (m : tmode) (g nv : nat) : nat -> list ascii -> Prop :=
| T_drw : forall s q what, s < nv -> nth_error ["con_err_"; "sigmad_"; "taud_"]%string q = Some what ->
    titled m g nv (3 * s + q) (str what ++ print_d (Z.of_nat s))
| T_err : forall l, titled m g nv (3 * nv + l * (1 + 3 * g)) (str "line_err_" ++ print_d (Z.of_nat l))
| T_comp : forall l k q what type, k < g -> nth_error (comp_labels m k) q = Some (what, type) ->
    titled m g nv (3 * nv + l * (1 + 3 * g) + 1 + 3 * k + q)
      (print_d (Z.of_nat k) ++ str "-th_component_" ++ str what ++ str "_" ++ print_d (Z.of_nat l)).

(** ** The names in the table *)
Definition comps (m : tmode) (g : nat) : list (list ascii) :=
  flat_map (fun k => [comp_name k (match m with Tpmap => if Nat.eqb k 0 then "amplitude" else "resp_ratio" | _ => "amplitude" end);
                      comp_name k "centroid"; comp_name k "sigma"]%string) (seq 0 g).
Definition drw : list (list ascii) := [chars "sys_err_con"; chars "sigmad"; chars "taud"].
Definition block (m : tmode) (g : nat) : list (list ascii) := chars "sys_err_line" :: comps m g.
Definition all_names (m : tmode) (g nv nl : nat) : list (list ascii) :=
  flat_map (fun _ => drw) (seq 0 nv) ++ flat_map (fun _ => block m g) (seq 0 nl).

Lemma map_flat : forall A B C (f : B -> C) (h : A -> list B) l, map f (flat_map h l) = flat_map (fun a => map f (h a)) l.
Proof. induction l as [|a l IH]; [reflexivity|]. cbn [flat_map]. rewrite map_app, IH. reflexivity. Qed.
Lemma names_labs : forall m g nv nl, map fst (labs m g nv nl) = all_names m g nv nl.
Proof.
  intros. unfold labs, all_names. rewrite map_app, !map_flat. f_equal. apply flat_map_ext. intros _. cbn [map fst]. unfold block, comps.
  rewrite map_flat. reflexivity.
Qed.
Lemma list_ext : forall A (l r : list A), (forall k, nth_error l k = nth_error r k) -> l = r.
Proof.
  induction l as [|a l IH]; intros [|b r] H; [reflexivity|discriminate (H O)..|].
  pose proof (H O) as E. injection E as <-. f_equal. apply IH. intros k. exact (H (S k)).
Qed.
Lemma comps_len : forall m g, List.length (comps m g) = 3 * g.
Proof. intros. unfold comps. rewrite (flat_const _ _ _ 3) by reflexivity. rewrite seq_length. reflexivity. Qed.
Lemma all_len : forall m g nv nl, List.length (all_names m g nv nl) = 3 * nv + (1 + 3 * g) * nl.
Proof. intros. rewrite <- names_labs, map_length. apply labs_len. Qed.

Lemma table_names : forall m g uv ut nset nlset st n,
  n = 3 * blocks_var (uv =? 1)%Z nset + (1 + 3 * g) * blocks_line (ut =? 1)%Z nlset -> ok_tab n st ->
  exists t, table m g (count_var uv nset) (count_line ut g nlset) st = Ok t /\
    second_words t = Ok (all_names m g (blocks_var (uv =? 1)%Z nset) (blocks_line (ut =? 1)%Z nlset)).
Proof.
  intros m g uv ut nset nlset st n N K. destruct (C94_table m g uv ut nset nlset st n N K) as (t & rows & E & L & LR & W).
  exists t. split; [exact E|]. revert W N. generalize (blocks_var (uv =? 1)%Z nset) (blocks_line (ut =? 1)%Z nlset). intros nv nl W N.
  assert (W2 : forall i l, nth_error rows i = Some l -> exists w0 w1 r, words l = w0 :: w1 :: r /\ nth_error (all_names m g nv nl) i = Some w1).
  { intros i l I. assert (LI : i < n) by (rewrite <- LR; apply nth_error_Some; congruence).
    destruct (W i LI) as (a & b & f & v & l' & _ & I' & (name & type & LB) & H). rewrite I in I'. injection I' as <-.
    rewrite (H name type LB). do 3 eexists. split; [reflexivity|].
    destruct (labs_nth m g nv nl i name type LB) as (ty & T & _); [lia|]. rewrite <- names_labs. erewrite map_nth_error by exact T. reflexivity. }
  unfold second_words. rewrite L, map_app, filter_app. cbn [map filter]. replace (words []) with (@nil word) by reflexivity. rewrite app_nil_r.
  assert (LA : List.length rows = List.length (all_names m g nv nl)) by (rewrite all_len; lia).
  revert W2 LA. generalize (all_names m g nv nl). clear. induction rows as [|l rows IH]; intros A W LA.
  - destruct A; [reflexivity|discriminate].
  - destruct A as [|x A]; [discriminate|]. destruct (W 0 l eq_refl) as (w0 & w1 & r & E & X). cbn [nth_error] in X. injection X as ->.
    assert (I2 : mapM (fun ws => match nth_error ws 1 with Some w => Ok w | None => Exit end)
       (filter (fun ws => match ws with [] => false | _ => true end) (map words rows)) = Ok A).
    2: { cbn [map filter]. rewrite E. cbn [mapM]. change (nth_error (w0 :: w1 :: r) 1) with (Some w1). cbn [bind]. rewrite I2. reflexivity. }
    apply IH.
    + intros i l' I. exact (W (S i) l' I).
    + cbn [List.length] in LA. lia.
Qed.

(** ** Positions of names *)
Lemma where_app : forall x a b k, where_from k x (a ++ b) = where_from k x a ++ where_from (k + List.length a) x b.
Proof.
  induction a as [|n a IH]; intros b k; cbn [app where_from List.length]; [rewrite Nat.add_0_r; reflexivity|].
  rewrite IH. replace (S k + List.length a) with (k + S (List.length a)) by lia. destruct (list_eq_dec ascii_dec n x); reflexivity.
Qed.
Lemma where_none : forall x a k, ~ In x a -> where_from k x a = [].
Proof.
  induction a as [|n a IH]; intros k H; cbn [where_from]; [reflexivity|].
  destruct (list_eq_dec ascii_dec n x) as [->|]; [exfalso; apply H; left; reflexivity|]. apply IH. intros I. apply H. right. exact I.
Qed.
Lemma where_last : forall x a k, ~ In x a -> where_from k x (a ++ [x]) = [k + List.length a].
Proof.
  intros. rewrite where_app, where_none by auto. cbn [app where_from]. destruct (list_eq_dec ascii_dec x x); [reflexivity|congruence].
Qed.
Lemma where_blocks : forall x b r n k, (forall k, where_from k x b = [k + r]) ->
  where_from k x (flat_map (fun _ : nat => b) (seq 0 n)) = map (fun l => k + l * List.length b + r) (seq 0 n).
Proof.
  intros x b r n k H.
  assert (G : forall n k s, where_from k x (flat_map (fun _ : nat => b) (seq s n)) = map (fun l => k + l * List.length b + r) (seq 0 n)).
  { clear n k. induction n as [|n IH]; intros k s; [reflexivity|]. cbn [seq flat_map]. rewrite where_app, H, IH. cbn [map app].
    f_equal; [lia|]. rewrite <- seq_shift, map_map. apply map_ext. intros l. lia. }
  apply G.
Qed.
Lemma where_no_blocks : forall x b n k, ~ In x b -> where_from k x (flat_map (fun _ : nat => b) (seq 0 n)) = [].
Proof.
  intros x b n k H. apply where_none. intros I. apply in_flat_map in I. destruct I as (_ & _ & I). auto.
Qed.

(** Component names have a dash after the digits, the others have none. *)
Definition dash : ascii := "-"%char.
Lemma digits_dash : forall n, (0 <= n)%Z -> ~ In dash (print_d n).
Proof.
  intros n H I. destruct (print_d_ok n H) as (_ & D & _). rewrite Forall_forall in D. specialize (D _ I). unfold isdigit in D. cbn in D. lia.
Qed.
Lemma print_d_inj : forall a b, (0 <= a)%Z -> (0 <= b)%Z -> print_d a = print_d b -> a = b.
Proof.
  intros a b A B E. destruct (print_d_ok a A) as (_ & _ & V). destruct (print_d_ok b B) as (_ & _ & W). rewrite E in V. congruence.
Qed.
Lemma dash_split : forall a b x y, ~ In dash a -> ~ In dash b -> a ++ dash :: x = b ++ dash :: y -> a = b /\ x = y.
Proof.
  induction a as [|c a IH]; intros [|d b] x y A B E; cbn [app] in E.
  - injection E as <-. auto.
  - injection E as <- _. exfalso. apply B. left. reflexivity.
  - injection E as -> _. exfalso. apply A. left. reflexivity.
  - injection E as <- E. destruct (IH b x y) as (<- & <-); auto; intros I; [apply A|apply B]; right; exact I.
Qed.
Lemma comp_name_inj : forall k k' w w', comp_name k w = comp_name k' w' -> k = k' /\ chars w = chars w'.
Proof.
  intros k k' w w' E. unfold comp_name in E. change (chars "-th_component_") with (dash :: chars "th_component_") in E. cbn [app] in E.
  apply dash_split in E; [|apply digits_dash; lia..]. destruct E as (E1 & E2). apply print_d_inj in E1; [|lia..].
  split; [lia|]. apply app_inv_head in E2. exact E2.
Qed.
Lemma comp_dash : forall k w, In dash (comp_name k w).
Proof. intros. unfold comp_name. apply in_or_app. right. left. reflexivity. Qed.
Lemma comps_dash : forall m g x, In x (comps m g) -> In dash x.
Proof.
  intros m g x I. unfold comps in I. apply in_flat_map in I. destruct I as (k & _ & [<-|[<-|[<-|[]]]]); apply comp_dash.
Qed.
Lemma taud_positions : forall m g nv nl, List.length (where_from 0 (chars "taud") (all_names m g nv nl)) = nv.
Proof.
  intros. unfold all_names. rewrite where_app, (where_blocks _ drw 2), where_no_blocks, app_nil_r, map_length, seq_length; [reflexivity| |].
  - intros [I|I]; [discriminate|]. apply comps_dash in I. cbn in I. intuition discriminate.
  - intros k. apply (where_last (chars "taud") [chars "sys_err_con"; chars "sigmad"] k). intros [I|[I|[]]]; discriminate.
Qed.
Lemma last_comp : forall m g, exists a, comps m (S g) = a ++ [comp_name g "sigma"] /\ List.length a = 3 * g + 2 /\ ~ In (comp_name g "sigma") a.
Proof.
  intros m g. unfold comps at 1. rewrite seq_S, flat_map_app. cbn [flat_map Nat.add app]. fold (comps m g).
  set (x := match m with Tpmap => if g =? 0 then _ else _ | _ => _ end).
  exists (comps m g ++ [comp_name g x; comp_name g "centroid"]). split; [rewrite <- app_assoc; reflexivity|].
  split; [rewrite app_length, comps_len; cbn; lia|]. intros I. apply in_app_or in I. destruct I as [I|[I|[I|[]]]].
  - unfold comps in I. apply in_flat_map in I. destruct I as (k & K & I). apply in_seq in K.
    destruct I as [I|[I|[I|[]]]]; apply comp_name_inj in I; lia.
  - apply comp_name_inj in I. destruct I as (_ & I). unfold x in I. destruct m; [|destruct (g =? 0)|]; discriminate.
  - apply comp_name_inj in I. destruct I as (_ & I). discriminate.
Qed.
Lemma sigma_positions : forall m g nv nl, 1 <= g ->
  where_from 0 (print_d (Z.of_nat g - 1) ++ chars "-th_component_sigma") (all_names m g nv nl) =
  map (fun l => 3 * nv + l * (1 + 3 * g) + 3 * g) (seq 0 nl).
Proof.
  intros m [|g] nv nl G; [lia|]. replace (Z.of_nat (S g) - 1)%Z with (Z.of_nat g) by lia.
  change (print_d (Z.of_nat g) ++ chars "-th_component_sigma") with (comp_name g "sigma").
  unfold all_names. rewrite where_app, where_no_blocks.
  2: { intros [I|[I|[I|[]]]]; pose proof (comp_dash g "sigma") as D; rewrite <- I in D; cbn in D; intuition discriminate. }
  rewrite (flat_const _ _ _ 3) by reflexivity. rewrite seq_length. cbn [app].
  destruct (last_comp m g) as (a & E & LA & NI).
  rewrite (where_blocks _ (block m (S g)) (3 * S g)).
  - cbn [List.length block]. rewrite comps_len. apply map_ext. intros l. lia.
  - intros k. unfold block. rewrite E. change (chars "sys_err_line" :: a ++ [comp_name g "sigma"]) with ((chars "sys_err_line" :: a) ++ [comp_name g "sigma"]).
    rewrite where_last.
    + cbn [List.length]. rewrite LA. f_equal. lia.
    + intros [I|I]; [|auto]. pose proof (comp_dash g "sigma") as D. rewrite <- I in D. cbn in D. intuition discriminate.
Qed.

(** ** The loop over the lines *)
Definition titles (m : tmode) (g : nat) (l : nat) : list (list ascii) :=
  numbered (chars "line_err_") l :: map (fun n => numbered (n ++ chars "_") l) (comps m g).

Lemma read_block : forall (names : list (list ascii)) (h : list ascii -> list ascii) b a r k, names = a ++ b ++ r -> List.length a = k ->
  mapM (fun j => n <- at_name names j ;; Ok (h n)) (seq k (List.length b)) = Ok (map h b).
Proof.
  intros names h. induction b as [|x b IH]; intros a r k E L; [reflexivity|]. cbn [List.length seq mapM].
  assert (X : at_name names k = Ok x).
  { unfold at_name. rewrite E, nth_error_app2 by lia. replace (k - List.length a) with 0 by lia. reflexivity. }
  rewrite X. cbn [bind]. rewrite (IH (a ++ [x]) r (S k)).
  - reflexivity.
  - rewrite E, <- app_assoc. reflexivity.
  - rewrite app_length. cbn. lia.
Qed.
Lemma loop_names : forall m g nv nl d s c, s + d = nl ->
  foldM (line_names (all_names m g nv nl)) (combine (seq s d) (map (fun l => 3 * nv + l * (1 + 3 * g) + 3 * g) (seq s d))) (c, 3 * nv + s * (1 + 3 * g)) =
  Ok (c ++ flat_map (titles m g) (seq s d), 3 * nv + nl * (1 + 3 * g)).
Proof.
  intros m g nv nl. induction d as [|d IH]; intros s c E.
  - cbn [seq map combine foldM flat_map]. rewrite app_nil_r. replace s with nl by lia. reflexivity.
  - cbn [seq map combine foldM]. unfold line_names at 1. cbn [fst snd].
    replace (3 * nv + s * (1 + 3 * g) + 3 * g + 1 - (3 * nv + s * (1 + 3 * g) + 1)) with (List.length (comps m g)) by (rewrite comps_len; lia).
    rewrite (read_block _ (fun n => numbered (n ++ chars "_") s) (comps m g)
       (flat_map (fun _ => drw) (seq 0 nv) ++ flat_map (fun _ => block m g) (seq 0 s) ++ [chars "sys_err_line"])
       (flat_map (fun _ => block m g) (seq (S s) d))).
    + cbn [bind]. replace (3 * nv + s * (1 + 3 * g) + 3 * g + 1) with (3 * nv + S s * (1 + 3 * g)) by lia.
      rewrite IH by lia. cbn [flat_map]. unfold titles at 2. rewrite <- app_assoc. reflexivity.
    + unfold all_names. replace (seq 0 nl) with (seq 0 s ++ s :: seq (S s) d).
      2: { rewrite <- E. rewrite seq_app. reflexivity. }
      rewrite flat_map_app. cbn [flat_map]. unfold block at 2. rewrite <- !app_assoc. reflexivity.
    + rewrite !app_length, (flat_const _ _ _ 3), (flat_const _ _ _ (1 + 3 * g)), !seq_length; [cbn [List.length]; lia| |reflexivity].
      intros x _. cbn [block List.length]. rewrite comps_len. reflexivity.
Qed.

Definition all_titles (m : tmode) (g nv nl : nat) : list (list ascii) :=
  flat_map (fun i => [numbered (chars "con_err_") i; numbered (chars "sigmad_") i; numbered (chars "taud_") i]) (seq 0 nv) ++
  flat_map (titles m g) (seq 0 nl).
Lemma colnames_ok : forall m g nv nl, 1 <= g -> colnames g (all_names m g nv nl) = Ok (all_titles m g nv nl).
Proof.
  intros m g nv nl G. unfold colnames. rewrite taud_positions, sigma_positions by exact G. rewrite map_length, seq_length.
  pose proof (loop_names m g nv nl nl 0) as L. rewrite Nat.mul_0_l, Nat.add_0_r in L. rewrite (Nat.mul_comm nv 3). rewrite L by lia. reflexivity.
Qed.
Lemma titles_len : forall m g l, List.length (titles m g l) = 1 + 3 * g.
Proof. intros. cbn [titles List.length]. rewrite map_length, comps_len. reflexivity. Qed.
Lemma all_titles_len : forall m g nv nl, List.length (all_titles m g nv nl) = 3 * nv + (1 + 3 * g) * nl.
Proof.
  intros. unfold all_titles. rewrite app_length, (flat_const _ _ _ 3), (flat_const _ _ _ (1 + 3 * g)), !seq_length; [lia| |reflexivity].
  intros; apply titles_len.
Qed.
Lemma titled_nth : forall m g nv nl i name, titled m g nv i name -> i < 3 * nv + (1 + 3 * g) * nl ->
  nth_error (all_titles m g nv nl) i = Some name.
Proof.
  intros m g nv nl i name H B. unfold all_titles. destruct H as [s q what S Q|l|l k q what type K Q].
  - assert (Q3 : q < 3) by (change 3 with (List.length ["con_err_"; "sigmad_"; "taud_"]%string); apply nth_error_Some; congruence).
    rewrite nth_error_app1 by (rewrite (flat_const _ _ _ 3) by reflexivity; rewrite seq_length; lia).
    rewrite (flat_nth _ _ _ 3 _ s s q) by (auto using nth_seq).
    destruct q as [|[|[|q]]]; [| | |lia]; injection Q as <-; reflexivity.
  - assert (L : l < nl) by nia.
    rewrite nth_error_app2 by (rewrite (flat_const _ _ _ 3) by reflexivity; rewrite seq_length; lia).
    rewrite (flat_const _ _ _ 3) by reflexivity. rewrite seq_length. replace (3 * nv + l * (1 + 3 * g) - 3 * nv) with ((1 + 3 * g) * l + 0) by lia.
    rewrite (flat_nth _ _ _ (1 + 3 * g) _ l l 0); [reflexivity|intros; apply titles_len|auto using nth_seq|lia].
  - assert (Q3 : q < 3) by (change 3 with (List.length (comp_labels m k)); apply nth_error_Some; congruence).
    assert (L : l < nl) by nia.
    rewrite nth_error_app2 by (rewrite (flat_const _ _ _ 3) by reflexivity; rewrite seq_length; lia).
    rewrite (flat_const _ _ _ 3) by reflexivity. rewrite seq_length.
    replace (3 * nv + l * (1 + 3 * g) + 1 + 3 * k + q - 3 * nv) with ((1 + 3 * g) * l + S (3 * k + q)) by lia.
    rewrite (flat_nth _ _ _ (1 + 3 * g) _ l l (S (3 * k + q))); [|intros; apply titles_len|auto using nth_seq|lia].
    cbn [titles nth_error].
    assert (C : nth_error (comps m g) (3 * k + q) = Some (comp_name k what)).
    { unfold comps. rewrite (flat_nth _ _ _ 3 _ k k q) by (auto using nth_seq).
      destruct q as [|[|[|q]]]; [| | |lia]; injection Q as <- <-; reflexivity. }
    erewrite map_nth_error by exact C. unfold numbered, comp_name. rewrite <- !app_assoc. reflexivity.
Qed.

(** Every column has a name, and two columns have different ones. *)
Lemma titled_total : forall m g nv nl i, i < 3 * nv + (1 + 3 * g) * nl -> exists name, titled m g nv i name.
Proof.
  intros m g nv nl i B. destruct (labelled_total m g nv nl i B) as (name & type & H).
  destruct H as [s q name type S Q|l|l k q name type K Q].
  - destruct q as [|[|[|q]]]; [..|cbn in Q; destruct q; discriminate]; eexists; eapply T_drw; try exact S; reflexivity.
  - eexists. apply T_err.
  - eexists. eapply T_comp; eauto.
Qed.
Lemma title_dash : forall w s, ~ In dash w -> ~ In dash (w ++ print_d (Z.of_nat s)).
Proof. intros w s H I. apply in_app_or in I. destruct I as [I|I]; [auto|]. apply digits_dash in I; [auto|lia]. Qed.
Lemma titled_inv : forall m g nv i name, titled m g nv i name ->
  (exists s q what, nth_error ["con_err_"; "sigmad_"; "taud_"]%string q = Some what /\ s < nv /\ i = 3 * s + q /\ name = str what ++ print_d (Z.of_nat s)) \/
  (exists l, i = 3 * nv + l * (1 + 3 * g) /\ name = str "line_err_" ++ print_d (Z.of_nat l)) \/
  (exists l k q what type, nth_error (comp_labels m k) q = Some (what, type) /\ i = 3 * nv + l * (1 + 3 * g) + 1 + 3 * k + q /\
     name = print_d (Z.of_nat k) ++ str "-th_component_" ++ str what ++ str "_" ++ print_d (Z.of_nat l)).
Proof.
  intros m g nv i name H. destruct H as [s q what S Q|l|l k q what type K Q].
  - left. exists s, q, what. auto.
  - right. left. exists l. auto.
  - right. right. exists l, k, q, what, type. auto.
Qed.
Lemma titled_distinct : forall m g nv i j name, titled m g nv i name -> titled m g nv j name -> i = j.
Proof.
  intros m g nv i j name H1 H2.
  assert (ND : forall q what, nth_error ["con_err_"; "sigmad_"; "taud_"]%string q = Some what -> ~ In dash (str what)).
  { intros [|[|[|[|q]]]] what Q; try discriminate; injection Q as <-; cbn; intuition discriminate. }
  assert (NE : ~ In dash (str "line_err_")) by (cbn; intuition discriminate).
  assert (YD : forall k w, In dash (print_d (Z.of_nat k) ++ str "-th_component_" ++ w)) by (intros; apply in_or_app; right; left; reflexivity).
  assert (PE : forall a b, print_d (Z.of_nat a) = print_d (Z.of_nat b) -> a = b) by (intros a b E; apply print_d_inj in E; lia).
  apply titled_inv in H1. apply titled_inv in H2.
  destruct H1 as [(s & q & what & Q & _ & -> & ->)|[(l & -> & ->)|(l & k & q & what & type & Q & -> & ->)]];
  destruct H2 as [(s' & q' & what' & Q' & _ & -> & E2)|[(l' & -> & E2)|(l' & k' & q' & what' & type' & Q' & -> & E2)]].
  - destruct q as [|[|[|[|q]]]]; try discriminate Q; destruct q' as [|[|[|[|q']]]]; try discriminate Q';
      injection Q as <-; injection Q' as <-; try discriminate E2; apply app_inv_head in E2; apply PE in E2; lia.
  - destruct q as [|[|[|[|q]]]]; try discriminate Q; injection Q as <-; discriminate E2.
  - exfalso. apply (title_dash _ s (ND _ _ Q)). rewrite E2. apply YD.
  - destruct q' as [|[|[|[|q']]]]; try discriminate Q'; injection Q' as <-; discriminate E2.
  - apply app_inv_head, PE in E2. subst. reflexivity.
  - exfalso. apply (title_dash _ l NE). rewrite E2. apply YD.
  - exfalso. apply (title_dash _ s' (ND _ _ Q')). rewrite <- E2. apply YD.
  - exfalso. apply (title_dash _ l' NE). rewrite <- E2. apply YD.
  - change (str "-th_component_") with (dash :: str "th_component_") in E2. cbn [app] in E2.
    apply dash_split in E2; [|apply digits_dash; lia..]. destruct E2 as (E3 & E4). apply PE in E3. subst k'.
    apply app_inv_head in E4.
    destruct q as [|[|[|[|q]]]]; try discriminate Q; destruct q' as [|[|[|[|q']]]]; try discriminate Q';
      injection Q as <- <-; injection Q' as <- <-; try discriminate E4;
      try (exfalso; destruct m; [|destruct (k =? 0)|]; discriminate E4);
      apply app_inv_head, app_inv_head, PE in E4; lia.
Qed.

(** ** C118 *)
(** With a directory given, the sample is returned as it is, one name for each
    parameter, and the name says which parameter of which block it is. *)
Theorem C118_columns : forall A m g uv ut nset nlset st n (rows : list (list A)), 1 <= g ->
  n = 3 * blocks_var (uv =? 1)%Z nset + (1 + 3 * g) * blocks_line (ut =? 1)%Z nlset -> ok_tab n st ->
  (forall r, In r rows -> List.length r = n) ->
  exists t c, table m g (count_var uv nset) (count_line ut g nlset) st = Ok t /\
    frame true g t rows = Ok (c, rows) /\ List.length c = n /\ NoDup c /\
    (forall i, i < n -> exists name, titled m g (blocks_var (uv =? 1)%Z nset) i name) /\
    forall i name, i < n -> titled m g (blocks_var (uv =? 1)%Z nset) i name -> nth_error c i = Some name.
Proof.
  intros A m g uv ut nset nlset st n rows G N K R. destruct (table_names m g uv ut nset nlset st n N K) as (t & E & W).
  revert N W. generalize (blocks_var (uv =? 1)%Z nset) (blocks_line (ut =? 1)%Z nlset). intros nv nl N W.
  exists t, (all_titles m g nv nl). split; [exact E|]. unfold frame. rewrite W. cbn [bind]. rewrite colnames_ok by exact G. cbn [bind].
  rewrite all_titles_len, <- N. split; [|split; [reflexivity|split; [|split]]].
  - replace (forallb _ rows) with true; [reflexivity|]. symmetry. apply forallb_forall. intros r I. apply Nat.eqb_eq. auto.
  - apply NoDup_nth_error. intros i j I J. rewrite all_titles_len in I.
    destruct (titled_total m g nv nl i I) as (name & T). pose proof (titled_nth m g nv nl i name T I) as X. rewrite X in J.
    assert (JL : j < 3 * nv + (1 + 3 * g) * nl). { rewrite <- (all_titles_len m g nv nl). apply nth_error_Some. congruence. }
    destruct (titled_total m g nv nl j JL) as (name' & T'). pose proof (titled_nth m g nv nl j name' T' JL) as Y. rewrite Y in J. injection J as ->.
    eapply titled_distinct; eauto.
  - intros i I. apply (titled_total m g nv nl). lia.
  - intros i name I T. apply titled_nth; [exact T|lia].
Qed.

(** Without a directory the same holds for two or more rows. *)
Theorem C118_default : forall A m g uv ut nset nlset st n (rows : list (list A)), 1 <= g ->
  n = 3 * blocks_var (uv =? 1)%Z nset + (1 + 3 * g) * blocks_line (ut =? 1)%Z nlset -> ok_tab n st ->
  (forall r, In r rows -> List.length r = n) -> 2 <= List.length rows ->
  exists t, table m g (count_var uv nset) (count_line ut g nlset) st = Ok t /\ frame false g t rows = frame true g t rows.
Proof.
  intros A m g uv ut nset nlset st n rows G N K R L. destruct (table_names m g uv ut nset nlset st n N K) as (t & E & W).
  exists t. split; [exact E|]. unfold frame. destruct rows as [|r [|r' rows]]; cbn [List.length] in L; try lia. reflexivity.
Qed.

(** It does not hold for a sample with a single row: that is refused. *)
Theorem C118_single_refuted : forall A m g uv ut nset nlset st n (r : list A), 1 <= g -> 2 <= n ->
  n = 3 * blocks_var (uv =? 1)%Z nset + (1 + 3 * g) * blocks_line (ut =? 1)%Z nlset -> ok_tab n st -> List.length r = n ->
  exists t c, table m g (count_var uv nset) (count_line ut g nlset) st = Ok t /\
    frame true g t [r] = Ok (c, [r]) /\ frame false g t [r] = Exit.
Proof.
  intros A m g uv ut nset nlset st n r G N2 N K R. destruct (table_names m g uv ut nset nlset st n N K) as (t & E & W).
  revert N W. generalize (blocks_var (uv =? 1)%Z nset) (blocks_line (ut =? 1)%Z nlset). intros nv nl N W.
  exists t, (all_titles m g nv nl). split; [exact E|]. unfold frame. rewrite W. cbn [bind]. rewrite colnames_ok by exact G. cbn [bind].
  rewrite all_titles_len, <- N. cbn [forallb]. rewrite R, Nat.eqb_refl. split; [reflexivity|].
  destruct r as [|x r]; [cbn in R; lia|]. cbn [map forallb List.length]. destruct (Nat.eqb_spec 1 n); [lia|]. reflexivity.
Qed.
(** One line in the general mode, and two lines in the photometric one. *)
Definition seven : list Z := [1; 2; 3; 4; 5; 6; 7]%Z.
Example C118_case : (t <- table (Tline 0) 1 (count_var 1 2) (count_line 0 1 [0; 1]) ex_st ;; frame true 1 t [seven]) =
  Ok (map str ["con_err_0"; "sigmad_0"; "taud_0"; "line_err_0"; "0-th_component_amplitude_0"; "0-th_component_centroid_0"; "0-th_component_sigma_0"]%string, [seven]).
Proof. vm_compute. reflexivity. Qed.
Example C118_two : colnames 2 (all_names Tpmap 2 1 2) = Ok (map str
  ["con_err_0"; "sigmad_0"; "taud_0";
   "line_err_0"; "0-th_component_amplitude_0"; "0-th_component_centroid_0"; "0-th_component_sigma_0";
   "1-th_component_resp_ratio_0"; "1-th_component_centroid_0"; "1-th_component_sigma_0";
   "line_err_1"; "0-th_component_amplitude_1"; "0-th_component_centroid_1"; "0-th_component_sigma_1";
   "1-th_component_resp_ratio_1"; "1-th_component_centroid_1"; "1-th_component_sigma_1"]%string).
Proof. vm_compute. reflexivity. Qed.
(** The hypotheses can be met with a line. *)
Example C118_meets : ok_tab 7 (mkps (repeat (w0, w1) 7) (repeat 0%Z 7) (repeat w0 7)) /\
  7 = 3 * blocks_var (1 =? 1)%Z 2 + (1 + 3 * 1) * blocks_line (0 =? 1)%Z [0; 1].
Proof.
  split; [|reflexivity]. split; [repeat split|]. split; [reflexivity|].
  assert (T : (4 <= 10 ^ 60)%R). { apply Rle_trans with (10 ^ 1)%R; [lra|]. apply Rle_pow; [lra|lia]. }
  assert (V := w1_val). assert (Z0 : B2R w0 = 0%R) by reflexivity. assert (F1 : finite w1) by reflexivity. assert (F0 : finite w0) by reflexivity.
  assert (A1 : (Rabs (B2R w1) <= 10 ^ 60)%R) by (rewrite V, Rabs_pos_eq; lra). assert (A0 : (Rabs (B2R w0) <= 10 ^ 60)%R) by (rewrite Z0, Rabs_R0; lra).
  intros i a b f v P. do 8 (destruct i as [|i]; [cbn in P; try discriminate P; injection P as <- <- <- <-; repeat split; auto; lia|]). destruct i; discriminate P.
Qed.

Print Assumptions C118_columns.
Print Assumptions C118_default.
Print Assumptions C118_single_refuted.
