(** Concrete snapshots and a crash. *)
From Coq Require Import ZArith List Bool Lia Arith.
From Verif Require Import CPrelude SortModel SortProofs ListLemmas DnestModel DnestProofs DnestRound DnestRuns SamplerSpec SamplerExamples
  RestartModel RestartProofs RestartSpec.
Import ListNotations.
Open Scope Z_scope.

(** Memory image of a state whose doubles are codes in range. *)
Definition bits (z : Z) : Z := if 0 <=? z then z else 2^63 - z.
Definition dbits (d : dbl) : Z := match d with NaN => 2^63 - 1 | Val z => bits z end.
Definition enc_level (l : level) : rawlevel :=
  mkraw (dbits (lv (lk l))) (bits (tb (lk l))) 0 (visits l) (exceeds l) (accepts l) (tries l).
Definition enc (st : gstate) : snap :=
  let ps := flat_map parts (g_tasks st) in
  mksnap (g_saves st) (g_steps st) (map enc_level (g_comb st))
    (map (fun p => (Z.of_nat (plev p), (dbits (lv (plik p)), bits (tb (plik p))))) ps)
    (match g_tasks st with
     | t :: _ => map (map (fun r => (dbits (fst r), dbits (snd r)))) (firstn (length (g_comb st)) (limits t))
     | [] => [] end)
    (map (fun p => map dbits (pm p)) ps).

(** Decidable version of snap_wf, for the examples. *)
Definition w64b (x : Z) : bool := (0 <=? x) && (x <? 2^64).
Definition w32b (x : Z) : bool := (0 <=? x) && (x <? 2^32).
Definition snap_wf_b (lim : bool) (dim n : nat) (s : snap) : bool :=
  w32b (s_saves s) && (Z.of_nat (length (s_levels s)) <? 2^31) &&
  forallb (fun l => w64b (w_val l) && w64b (w_tb l) && w64b (w_logX l) && w64b (w_visits l) &&
                    w64b (w_exceeds l) && w64b (w_accepts l) && w64b (w_tries l)) (s_levels s) &&
  (length (s_assign s) =? n)%nat &&
  forallb (fun a => w32b (fst a) && w64b (fst (snd a)) && w64b (snd (snd a))) (s_assign s) &&
  (length (s_limits s) =? (if lim then length (s_levels s) else 0))%nat &&
  forallb (fun r => (length r =? dim)%nat && forallb (fun p => w64b (fst p) && w64b (snd p)) r) (s_limits s) &&
  (length (s_parts s) =? n)%nat &&
  forallb (fun p => (length p =? dim)%nat && forallb w64b p) (s_parts s).

Lemma w64b_ok : forall x, w64b x = true -> w64 x.
Proof. unfold w64b, w64. intros x H. apply andb_true_iff in H. lia. Qed.
Lemma w32b_ok : forall x, w32b x = true -> w32 x.
Proof. unfold w32b, w32. intros x H. apply andb_true_iff in H. lia. Qed.

Ltac ands H := repeat match type of H with (_ && _) = true => apply andb_true_iff in H; destruct H as [H ?] end.

Lemma snap_wf_ok : forall lim dim n s, snap_wf_b lim dim n s = true -> snap_wf lim dim n s.
Proof.
  intros lim dim n s H. unfold snap_wf_b in H. ands H. constructor.
  - apply w32b_ok. assumption.
  - lia.
  - apply Forall_forall. intros l Hl. rewrite forallb_forall in H6. specialize (H6 l Hl). ands H6.
    unfold raw_ok. repeat split; apply w64b_ok; assumption.
  - apply Nat.eqb_eq. assumption.
  - apply Forall_forall. intros l Hl. rewrite forallb_forall in H4. specialize (H4 l Hl). ands H4.
    split; [apply w32b_ok; assumption|]. split; apply w64b_ok; assumption.
  - apply Nat.eqb_eq. assumption.
  - apply Forall_forall. intros l Hl. rewrite forallb_forall in H2. specialize (H2 l Hl). apply andb_true_iff in H2.
    destruct H2 as [A B]. split; [apply Nat.eqb_eq; exact A|]. apply Forall_forall. intros p Hp.
    rewrite forallb_forall in B. specialize (B p Hp). ands B. split; apply w64b_ok; assumption.
  - apply Nat.eqb_eq. assumption.
  - apply Forall_forall. intros l Hl. rewrite forallb_forall in H0. specialize (H0 l Hl). apply andb_true_iff in H0.
    destruct H0 as [A B]. split; [apply Nat.eqb_eq; exact A|]. apply Forall_forall. intros p Hp.
    rewrite forallb_forall in B. apply w64b_ok. auto.
Qed.

(** ** 2 tasks with 2 particles, 3 levels, 10 samples, a snapshot every 2. *)
Definition cro : opts := mkopts 2 2 2 4 4 3 10 10 2 1 true 1.
Definition crounds (n : nat) : list rdraw := map exround (map Z.of_nat (seq 1 n)).
Definition getok {A} (d : A) (x : outcome A) : A := match x with Ok a => a | _ => d end.
Definition st0 := init_state cro exinit.
(** State and snapshots after three rounds. *)
Definition crash := getok (st0, []) (run_snaps never cro 0 2 (crounds 3) st0 []).
Definition snapst := last (snd crash) st0.
Definition values (st : gstate) : list (list dbl) := map (fun t => map (fun p => lv (plik p)) (parts t)) (g_tasks st).
Definition resumed := getok st0 (restart cro (write_snap true (enc snapst)) (values snapst)).
Definition finished := getok st0 (run never cro (crounds 20) resumed).

Lemma cro_valid : valid_opts cro.
Proof. constructor; simpl; lia. Qed.
Lemma cro_init : valid_init cro exinit.
Proof. split; [reflexivity|repeat constructor]. Qed.
Lemma crounds_ok : forall n, Forall (valid_round cro) (crounds n).
Proof.
  intros n. apply vrounds_ok. apply forallb_forall. intros r Hr. unfold crounds in Hr.
  apply in_map_iff in Hr. destruct Hr as (k & <- & _). reflexivity.
Qed.
Lemma crash_ok : run_snaps never cro 0 2 (crounds 3) st0 [] = Ok crash.
Proof. vm_compute. reflexivity. Qed.
Lemma resumed_ok : restart cro (write_snap true (enc snapst)) (values snapst) = Ok resumed.
Proof. vm_compute. reflexivity. Qed.
Lemma finished_ok : run never cro (crounds 20) resumed = Ok finished.
Proof. vm_compute. reflexivity. Qed.
Lemma snapst_ok : snapshot_of cro (enc snapst) snapst.
Proof.
  constructor.
  - apply snap_wf_ok. vm_compute. reflexivity.
  - vm_compute. reflexivity.
  - vm_compute. reflexivity.
  - vm_compute. reflexivity.
  - vm_compute. reflexivity.
  - assert (G : forallb (fun a => fst a <? Z.of_nat (length (s_levels (enc snapst)))) (s_assign (enc snapst)) = true)
      by (vm_compute; reflexivity).
    rewrite forallb_forall in G. apply Forall_forall. intros a Ha. specialize (G a Ha). apply Z.ltb_lt. exact G.
Qed.
Definition values_ok_b (o : opts) (s : snap) (vs : list (list dbl)) : bool :=
  (length vs =? o_tt o)%nat &&
  forallb (fun v => (length v =? o_np o)%nat && forallb (fun x => match x with NaN => false | Val _ =>
     match nth_error (s_levels s) 0 with Some l => negb (dlt x (dbl_of (w_val l))) | None => true end end) v) vs.
Lemma values_ok_ok : forall o s vs, values_ok_b o s vs = true -> values_ok o s vs.
Proof.
  intros o s vs H. unfold values_ok_b in H. apply andb_true_iff in H. destruct H as [H G].
  split; [apply Nat.eqb_eq; exact H|].
  rewrite forallb_forall in G. apply Forall_forall. intros v Hv. specialize (G v Hv). apply andb_true_iff in G.
  destruct G as [A B]. split; [apply Nat.eqb_eq; exact A|]. rewrite forallb_forall in B. apply Forall_forall.
  intros x Hx. specialize (B x Hx). destruct x as [|z]; [discriminate|]. split; [exists z; reflexivity|].
  intros l Hl. rewrite Hl in B. destruct (dlt _ _); [discriminate|reflexivity].
Qed.
Lemma snapst_values : values_ok cro (enc snapst) (values snapst).
Proof. apply values_ok_ok. vm_compute. reflexivity. Qed.
