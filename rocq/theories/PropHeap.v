(** C98.  Every block of memory of a run is freed once and used only while it is there, apart from a
    known list of blocks that are never freed. *)
From Coq Require Import Ascii String List Bool Arith Lia.
From Verif Require Import CPrelude GetoptModel DampModel HeapModel HeapProofs.
Import ListNotations.
Open Scope nat_scope.
Open Scope string_scope.
Open Scope list_scope.

(** ** Specification *)
(** The operations on one pointer, in order. *)
Definition history (p : ptr) (l : list op) : list kind :=
  map fst (filter (fun o => if string_dec (fst p) (fst (snd o)) then if list_eq_dec Nat.eq_dec (snd p) (snd (snd o)) then true else false else false) l).
(** The number of blocks that were never freed; no answer if a block is freed or used when
    the pointer does not hold one.  live: the pointer holds a block now. *)
Fixpoint never_freed (live : bool) (h : list kind) : option nat :=
  match h, live with
  | [], true => Some 1
  | [], false => Some 0
  | Malloc :: h, true => option_map S (never_freed true h)    (* the old block is lost *)
  | Malloc :: h, false => never_freed true h
  | Free :: h, true => never_freed false h
  | Use :: h, true => never_freed true h
  | _, false => None
  end.

(** The exceptions: four arrays, and one block for every data set and decomposition *)
Definition kept (root : bool) (nset decompositions : nat) (p : ptr) : nat :=
  match snd p with
  | [] => if in_dec string_dec (fst p) (["var_param"; "var_param_std"; "idx_con_pm"] ++ (if root then ["pardict"] else [])) then 1 else 0
  | [i] => if string_dec (fst p) "dec.feall_max[]" then if Nat.ltb i nset then decompositions else 0 else 0
  | _ => 0
  end.
(** how often the components are taken apart *)
Definition decompositions (m : mode) (f : flags) (components : list nat) : nat :=
  if para_name f || postsample f then 0 else
  match m with
  | nmap | vmap => 0
  | mmap => if decomp f then List.length components else 0
  | gmodel | pmap => if decomp f then List.length (filter (fun k => Nat.leb 2 k) components) else 0
  end.

(** ** Proof *)
Lemma history_kinds : forall p l, history p l = kinds p l.
Proof.
  intros [x i] l. unfold history, kinds. f_equal. apply filter_ext. intros [k [y j]]. unfold ptr_eqb. cbn [fst snd].
  destruct (string_dec x y) as [->|N].
  - rewrite String.eqb_refl. now destruct list_eq_dec.
  - apply String.eqb_neq in N. rewrite N. now destruct list_eq_dec.
Qed.
Lemma go_never : forall h b c, go b h = Some c -> never_freed b h = Some (if c then 1 else 0).
Proof.
  induction h as [|[] h IH]; intros b c H; cbn in *.
  - inversion H; subst. now destruct c.
  - destruct b; [discriminate|]. now apply IH.
  - destruct b; [now apply IH|discriminate].
  - destruct b; [now apply IH|discriminate].
Qed.

Definition F : string := "dec.feall_max[]".
Definition expect (root : bool) (x : string) : option count :=
  if existsb (String.eqb x) (["var_param"; "var_param_std"; "idx_con_pm"] ++ (if root then ["pardict"] else [])) then Some One else None.
Fixpoint distinct (seen l : list string) : list string :=
  match l with [] => seen | x :: l => distinct (if existsb (String.eqb x) seen then seen else x :: seen) l end.
Lemma distinct_in : forall l seen x, In x seen \/ In x l -> In x (distinct seen l).
Proof.
  induction l as [|y l IH]; intros seen x H; cbn [distinct]; [cbn in H; tauto|]. apply IH.
  destruct (existsb (String.eqb y) seen) eqn:E; cbn in H |- *.
  - apply existsb_exists in E. destruct E as (z & Z & E). apply String.eqb_eq in E. subst z.
    destruct H as [H|[<-|H]]; auto.
  - tauto.
Qed.
Definition fine (root : bool) (p : prog) : bool :=
  forallb (fun x => if String.eqb x F then true else match chk x None p with Some b => oeqb b (expect root x) | None => false end)
    (distinct [] (names p)).

Section Run.
Variables (nset : nat) (nlset : nat -> nat) (root : bool) (m : mode) (gap lag4 limits : bool).
Variables (n : string -> env -> nat) (yes : string -> env -> bool) (f : flags) (numbers : list env) (e0 : env).
Notation run := (main_run root m gap lag4 n yes limits f numbers).

Lemma run_fine : (m = pmap -> lag4 = true) -> fine root run = true.
Proof.
  intros Lag.
  destruct m, root, gap, lag4, limits; try (exfalso; now discriminate (Lag eq_refl)); vm_compute; reflexivity.
Qed.
Lemma run_leaks : forall x, expect root x <> None -> In x (names run).
Proof.
  assert (A : forallb (fun x => existsb (String.eqb x) (names run))
    (["var_param"; "var_param_std"; "idx_con_pm"] ++ (if root then ["pardict"] else [])) = true).
  { destruct m, root, gap, lag4, limits; vm_compute; reflexivity. }
  intros x H. unfold expect in H.
  destruct (existsb (String.eqb x) _) eqn:E; [|congruence]. apply existsb_exists in E. destruct E as (y & Y & E).
  apply String.eqb_eq in E. subst y. rewrite forallb_forall in A. specialize (A x Y).
  apply existsb_exists in A. destruct A as (y & Q & E). apply String.eqb_eq in E. now subst.
Qed.
Lemma others : (m = pmap -> lag4 = true) -> forall x i, x <> F ->
  never_freed false (history (x, i) (trace nset nlset e0 run)) = Some (if live nset nlset e0 (expect root x) i then 1 else 0).
Proof.
  intros Lag x i N. rewrite history_kinds. apply go_never.
  destruct (in_dec string_dec x (names run)) as [I|I].
  - pose proof (run_fine Lag) as A. unfold fine in A. rewrite forallb_forall in A.
    specialize (A x (distinct_in _ [] x (or_intror I))). apply String.eqb_neq in N. rewrite N in A.
    destruct (chk x None run) as [b|] eqn:C; [|discriminate]. apply oeqb_eq in A. subst b.
    exact (chk_sound nset nlset _ _ _ _ i C e0).
  - rewrite untouched by auto. destruct (expect root x) eqn:E; [|reflexivity].
    exfalso. apply I, run_leaks. congruence.
Qed.

Lemma dec_F : forall i e, exists k, kinds (F, i) (trace nset nlset e (decomposition root m n)) =
  if mem i (row nset) then Malloc :: repeat Use k else [].
Proof.
  intros i e. unfold decomposition. cbn [trace].
  assert (B : ~ In F (names (dec_before root))).
  { intros Q. assert (E : existsb (String.eqb F) (names (dec_before root)) = true).
    { apply existsb_exists. exists F. split; [auto|apply String.eqb_refl]. }
    destruct root; vm_compute in E; discriminate. }
  assert (R : reads F Sets (dec_after root m n) = true) by (destruct m, root; vm_compute; reflexivity).
  destruct (reads_sound nset nlset _ F i Sets R eq_refl e) as (k & K & K0). exists k.
  rewrite !kinds_app. rewrite untouched by exact B. rewrite K. rewrite kinds_stmt.
  change (occ F (elems dec_arrays)) with 1. cbn [domain] in *.
  destruct (mem i (row nset)); [reflexivity|]. now rewrite K0.
Qed.
Lemma absent : forall p i e, existsb (String.eqb F) (names p) = false -> kinds (F, i) (trace nset nlset e p) = [].
Proof.
  intros p i e H. apply untouched. intros Q. rewrite (proj2 (existsb_exists _ _)) in H; [discriminate|].
  exists F. split; [auto|apply String.eqb_refl].
Qed.
Definition taken (e : env) : bool := negb (para_name f || postsample f) && takes_apart m f (hd 0 (path e)).
Lemma number_F : forall i e postprc, exists k,
  kinds (F, i) (trace nset nlset e (one_number root m gap lag4 n yes limits f postprc)) =
  if mem i (row nset) && taken e then Malloc :: repeat Use k else [].
Proof.
  intros i e postprc. destruct (dec_F i e) as (k & K). exists k. unfold one_number, taken. cbn [trace when].
  rewrite kinds_app. rewrite absent by (destruct m, root, gap, lag4, limits; vm_compute; reflexivity).
  destruct (para_name f || postsample f); cbn [negb andb]; [now rewrite andb_false_r|].
  rewrite !kinds_app. rewrite (absent (summary root)) by (destruct root; vm_compute; reflexivity).
  rewrite (absent (reconstruction root m n)) by (destruct root, m; vm_compute; reflexivity).
  destruct (takes_apart m f (hd 0 (path e))); [|now rewrite andb_false_r].
  rewrite andb_true_r. exact K.
Qed.
Lemma segments : forall ks b, never_freed b (flat_map (fun k => Malloc :: repeat Use k) ks) =
  Some (List.length ks + (if b then 1 else 0)).
Proof.
  assert (U : forall k h, never_freed true (repeat Use k ++ h) = never_freed true h) by (induction k; cbn; auto).
  induction ks as [|k ks IH]; intros b; cbn [flat_map app].
  - now destruct b.
  - destruct b; cbn [never_freed]; rewrite U, IH; cbn; f_equal; lia.
Qed.
Lemma Each_F : forall i postprc, exists ks,
  kinds (F, i) (trace nset nlset e0 (Each numbers (one_number root m gap lag4 n yes limits f postprc))) =
    flat_map (fun k => Malloc :: repeat Use k) ks /\
  List.length ks = if mem i (row nset) then List.length (filter taken numbers) else 0.
Proof.
  intros i postprc. cbn [trace]. induction numbers as [|e l (ks & K & L)].
  - exists []. cbn. now destruct (mem i (row nset)).
  - cbn [flat_map]. rewrite kinds_app, K. destruct (number_F i e postprc) as (k & ->). cbn [filter].
    destruct (mem i (row nset)); cbn [andb].
    + destruct (taken e); [exists (k :: ks)|exists ks]; cbn; auto.
    + exists ks. auto.
Qed.
Lemma run_F : forall i, never_freed false (history (F, i) (trace nset nlset e0 run)) =
  Some (match m with nmap => 0 | _ => if mem i (row nset) then List.length (filter taken numbers) else 0 end).
Proof.
  intros i. rewrite history_kinds. unfold main_run.
  set (con := runs_mc_con _ _ _). cbn [trace]. rewrite !kinds_app.
  rewrite (absent (read_parset root)) by (destruct root; vm_compute; reflexivity).
  rewrite (absent read_data) by (vm_compute; reflexivity).
  rewrite (absent (init root gap n yes)) by (destruct root, gap; vm_compute; reflexivity).
  rewrite (absent (when _ _ _)) by (destruct m, root, gap, limits; vm_compute; reflexivity).
  rewrite (absent (free_memory root gap)) by (destruct root, gap; vm_compute; reflexivity).
  rewrite app_nil_r. cbn [app].
  set (pp := if con && restart f then false else postprc f). clearbody pp.
  assert (D : never_freed false (kinds (F, i) (trace nset nlset e0 (driver root m gap lag4 n yes limits f pp numbers))) =
    Some (if mem i (row nset) then List.length (filter taken numbers) else 0)).
  { unfold driver. destruct (Each_F i pp) as (ks & K & L). cbn [trace]. cbn [trace] in K. rewrite !kinds_app.
    rewrite K.
    rewrite (absent (driver_init m lag4)) by (destruct m, lag4; vm_compute; reflexivity).
    rewrite (absent (driver_end m lag4)) by (destruct m, lag4; vm_compute; reflexivity).
    rewrite !(absent (new _)), !(absent (use _)), !(absent (new_each _ _)), !(absent (use_each _ _)), !(absent (del_each _ _)), !(absent (del _))
      by (vm_compute; reflexivity).
    cbn [app]. rewrite app_nil_r, segments, Nat.add_0_r. now rewrite L. }
  destruct m; cbn [trace]; try exact D. reflexivity.
Qed.
End Run.

(** C98.  In every run - any mode, options and settings, any numbers of sets, lines, parameters, levels,
    samples and components, on the root task or not, whatever the sampler does - no block is
    used or freed when it is not there, and the blocks never freed are the ones in [kept]. *)
Theorem C98_memory : forall nset nlset root m gap lag4 limits n yes f numbers e0,
  (m = pmap -> lag4 = true) ->
  forall p, never_freed false (history p (trace nset nlset e0 (main_run root m gap lag4 n yes limits f numbers))) =
    Some (kept root nset (decompositions m f (map (fun e => hd 0 (path e)) numbers)) p).
Proof.
  intros nset nlset root m gap lag4 limits n yes f numbers e0 Lag [x i].
  destruct (string_dec x F) as [->|N].
  - rewrite run_F. f_equal.
    assert (C : match m with nmap => 0 | _ => List.length (filter (taken m f) numbers) end =
      decompositions m f (map (fun e => hd 0 (path e)) numbers)).
    { unfold decompositions, taken. destruct (para_name f || postsample f); cbn [negb andb].
      - destruct m; try reflexivity; now induction numbers.
      - destruct m; cbn [takes_apart]; destruct (decomp f); try reflexivity; cbn [andb];
          induction numbers as [|e l IH]; try reflexivity; cbn [filter map List.length] in *; rewrite ?andb_true_r, ?andb_false_r in *;
          try (exact IH); try (f_equal; exact IH).
        all: change (Nat.leb 2 (hd 0 (path e))) with (Nat.ltb 1 (hd 0 (path e)));
          destruct (Nat.ltb 1 (hd 0 (path e))); cbn [List.length]; rewrite ?IH; reflexivity. }
    rewrite <- C. unfold kept. cbn [fst snd].
    assert (M : forall i, mem [i] (row nset) = (i <? nset)%nat).
    { intros k. apply eq_true_iff_eq. rewrite mem_in. unfold row. rewrite in_map_iff, Nat.ltb_lt. split.
      - intros (j & E & J). inversion E; subst. apply in_seq in J. lia.
      - intros K. exists k. split; [reflexivity|]. apply in_seq. lia. }
    destruct i as [|i [|j t]].
    + destruct in_dec as [Q|_]; [exfalso; cbn in Q; unfold F in Q; destruct root; cbn in Q; intuition discriminate|].
      replace (mem [] (row nset)) with false; [now destruct m|].
      symmetry. apply not_true_is_false. rewrite mem_in. unfold row. rewrite in_map_iff. intros (j & E & _). discriminate.
    + rewrite M. destruct (string_dec F "dec.feall_max[]") as [_|Q]; [|now destruct Q].
      destruct m, (i <? nset)%nat; reflexivity.
    + replace (mem (i :: j :: t) (row nset)) with false; [now destruct m|].
      symmetry. apply not_true_is_false. rewrite mem_in. unfold row. rewrite in_map_iff. intros (k & E & _). discriminate.
  - rewrite others by auto. f_equal. unfold kept, expect. cbn [fst snd].
    set (L := _ ++ _). assert (E : existsb (String.eqb x) L = if in_dec string_dec x L then true else false).
    { apply eq_true_iff_eq. rewrite existsb_exists. destruct in_dec as [Q|Q]; split; auto; try discriminate.
      - intros _. exists x. split; [auto|apply String.eqb_refl].
      - intros (y & Y & W). apply String.eqb_eq in W. now subst. }
    rewrite E. destruct (string_dec x "dec.feall_max[]") as [Q|_]; [now destruct N|].
    destruct (in_dec string_dec x L); cbn [live domain]; destruct i as [|i [|j t]]; reflexivity.
Qed.
Print Assumptions C98_memory.

(** "Everything is freed" is false: a decomposition leaves blocks behind (src/line_decomp.c:151, 342-354),
    and every run leaves the parameters of the variability. *)
Theorem C98_leak_refuted : exists nset nlset m n yes f numbers e0,
  never_freed false (history ("dec.feall_max[]", [0]) (trace nset nlset e0 (main_run true m false false n yes true f numbers))) = Some 2.
Proof.
  exists 1, (fun _ => 1), gmodel, (fun _ _ => 1), (fun _ _ => true),
    (Flags true false false true false false false false None), [Env 5 3 3 [2]; Env 8 3 3 [3]], (Env 3 3 3 []).
  rewrite C98_memory by discriminate. reflexivity.
Qed.
Print Assumptions C98_leak_refuted.

(** The sampler library frees a copy of the ranges that the previous call made
    (cdnest/dnest.c:969-973, 1190-1193): a call with ranges and then one without frees it twice. *)
Theorem C98_api_refuted : exists (root : bool) n yes e,
  never_freed false (history ("dnest_param_range", [])
    (trace 1 (fun _ => 1) e (Seq (dnest root gmodel false n yes true true true false true true) (dnest root gmodel false n yes true false true false true true)))) = None.
Proof. exists true, (fun _ _ => 0), (fun _ _ => false), (Env 1 1 1 []). vm_compute. reflexivity. Qed.
Print Assumptions C98_api_refuted.

(** Two sets with one and two lines, two numbers of components, decomposed: two blocks are left of
    the second set, the light curves are freed. *)
Example C98_example : let l := trace 2 (fun i => S i) (Env 3 2 2 []) (main_run true gmodel true true (fun _ _ => 2) (fun _ _ => true) true
    (Flags true false false true false false false false None) [Env 6 2 2 [1]; Env 9 2 2 [2]; Env 12 2 2 [3]]) in
  let s := trace 2 (fun i => S i) (Env 3 2 2 []) (main_run false mmap true true (fun _ _ => 2) (fun _ _ => true) true no_flags [Env 6 2 2 [1]]) in
  never_freed false (history ("dec.feall_max[]", [1]) l) = Some 2 /\
  never_freed false (history ("line.t", [1; 1]) l) = Some 0 /\
  never_freed false (history ("var_param", []) l) = Some 1 /\
  List.length (history ("proposal", []) s) = 32 /\ never_freed false (history ("proposal", []) s) = Some 0.
Proof. vm_compute. repeat split; congruence. Qed.
