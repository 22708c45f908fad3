(** Vocabulary used in the statements about the sampler (PropSampler.v).
    Nothing here is used by the model itself. *)
From Coq Require Import ZArith List Bool Lia.
From Verif Require Import CPrelude SortModel ListLemmas DnestModel DnestProofs DnestRound.
Import ListNotations.
Open Scope Z_scope.

(** What a run starts from: for each task the tiebreaker of its bottom level
    and its particles (parameters and likelihood), as many as asked for. *)
Definition valid_init (o : opts) (init : list (Z * list (list dbl * lik))) : Prop :=
  length init = o_tt o /\ Forall (fun x => length (snd x) = o_np o) init.

(** States at the top of the main loop of a fresh run, for any likelihood
    values and random draws. *)
Definition reachable (ptol_ok : list dbl -> bool) (o : opts) (st : gstate) : Prop :=
  exists init rs, valid_init o init /\ Forall (valid_round o) rs /\
    run ptol_ok o rs (init_state o init) = Ok st.

(** A likelihood is inside level number [n] of the table [ls]: the level
    exists and it is the bottom one or its threshold is exceeded. *)
Definition inside (ls : list level) (n : nat) (x : lik) : Prop :=
  exists l, nth_error ls n = Some l /\ (n = O \/ dlt (lv (lk l)) (lv x) = true).

(** Thresholds of a table, bottom first. *)
Definition thresholds (ls : list level) : list lik := map lk ls.

(** [a] is an initial segment of [b]. *)
Definition prefix {A} (a b : list A) : Prop := exists c, b = a ++ c.

(** Increasing thresholds, weakly and strictly. *)
Definition nondecreasing (ls : list level) : Prop :=
  forall i j a b, (i < j)%nat -> nth_error ls i = Some a -> nth_error ls j = Some b ->
    dle (lv (lk a)) (lv (lk b)) = true.
Definition increasing (ls : list level) : Prop :=
  forall i j a b, (i < j)%nat -> nth_error ls i = Some a -> nth_error ls j = Some b ->
    dlt (lv (lk a)) (lv (lk b)) = true.

Definition counters_ok (l : level) : Prop :=
  0 <= exceeds l <= visits l /\ 0 <= accepts l <= tries l.

(** What the tasks [ts] together added to counter [f] of level [j] whose
    counter was [before] at the start of the round. *)
Fixpoint added (f : level -> Z) (j : nat) (before : Z) (ts : list task) : Z :=
  match ts with
  | [] => 0
  | t :: r => match nth_error (levels t) j with Some l => f l - before | None => 0 end
              + added f j before r
  end.

(** Level building is finished, as seen with limit [mx]. *)
Definition building_done (ptol_ok : list dbl -> bool) (mx : nat) (ls : list level) : Prop :=
  enough_levels ptol_ok mx ls = Ok true.
Definition building (ptol_ok : list dbl -> bool) (mx : nat) (ls : list level) : Prop :=
  enough_levels ptol_ok mx ls = Ok false.

(** The task states after the MCMC steps of a round, before merging. *)
Definition after_steps (ptol_ok : list dbl -> bool) (o : opts) (st : gstate) (r : rdraw) (ts : list task) : Prop :=
  run_tasks ptol_ok o (g_rmax st :: repeat (o_maxl o) (length (g_tasks st) - 1))
    (g_tasks st) (r_steps r) = Ok ts.

(** No log-likelihood value occurs twice among those recorded. *)
Definition distinct_values (l : list lik) : Prop := NoDup (map lv l).

(** In every round of the run the recorded log-likelihoods (old pool and the
    new ones of all tasks) are pairwise different. *)
Fixpoint tie_free (ptol_ok : list dbl -> bool) (o : opts) (rs : list rdraw) (st : gstate) : Prop :=
  match rs with
  | [] => True
  | r :: rs' => terminated o st = true \/
     ((forall ts, after_steps ptol_ok o st r ts -> distinct_values (g_pool st ++ flat_map above ts)) /\
      (forall st', round ptol_ok o st r = Ok st' -> tie_free ptol_ok o rs' st'))
  end.

(** Interval limits of one parameter: [a] contains [b] (an interval with lower
    end above its upper end is empty; the comparison of ends is then still
    meaningful and stronger than set inclusion). *)
Definition contains (a b : dbl * dbl) : Prop :=
  dle (fst a) (fst b) = true /\ dle (snd b) (snd a) = true.
Definition row_contains (a b : list (dbl * dbl)) : Prop := Forall2 contains a b.
(** A parameter value lies in an interval (NaN parameters are ignored by
    fmin/fmax). *)
Definition within (x : dbl) (a : dbl * dbl) : Prop :=
  x = NaN \/ (dle (fst a) x = true /\ dle x (snd a) = true).

(** In state [t], step [d] of a task moves a particle with parameters [xs] to
    level [q] (the particle's own update comes first or second, at random). *)
Definition moves_to (t : task) (d : sdraw) (q : nat) (xs : list dbl) : Prop :=
  exists t1 p lp,
    (if d_order d then update_particle t d = Ok t1 else t1 = t) /\
    nth_error (parts t1) (d_which d) = Some p /\ xs = pm p /\
    mod_int (d_lev d) (Z.of_nat (length (levels t1))) = Ok (Z.of_nat q) /\
    nth_error (levels t1) q = Some lp /\
    d_coin2 d = true /\ dlt (lv (lk lp)) (lv (plik p)) = true.
