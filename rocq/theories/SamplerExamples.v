(** Concrete runs of the sampler model: they meet the hypotheses of the
    theorems of PropSampler.v and serve as counterexamples for its
    refutations. *)
From Coq Require Import ZArith List Bool Lia Arith.
From Verif Require Import CPrelude SortModel ListLemmas DnestModel DnestProofs DnestRound SamplerSpec.
Import ListNotations.
Open Scope Z_scope.

Definition never (_ : list dbl) : bool := false.

(** A proposal with value [v] (parameter and log-likelihood), accepted or not,
    and a proposed level change. *)
Definition dr (w : nat) (v : Z) (acc : bool) (lev : Z) (mv : bool) : sdraw :=
  mkdraw w true [Val v] (mklik (Val v) 0) acc lev mv.

(** ** A normal run: 2 tasks, 2 particles, 2 steps each per round, 3 levels,
    3 samples. *)
Definition exo : opts := mkopts 2 2 2 4 4 3 3 10 2 1 true 1.
Definition exinit : list (Z * list (list dbl * lik)) :=
  [ (7, [([Val 1], mklik (Val 1) 0); ([Val 2], mklik (Val 2) 0)]);
    (9, [([Val 3], mklik (Val 3) 0); ([Val 4], mklik (Val 4) 0)]) ].
Definition exround (k : Z) : rdraw :=
  mkrd [ [dr 0 (100 * k + 1) true (k - 1) true; dr 1 (100 * k + 2) true 0 false];
         [dr 1 (100 * k + 3) true (1 - k) true; dr 0 (100 * k + 4) true 1 true] ]
       (mkkill [true; false] [[(1%nat, false); (0%nat, true); (1%nat, true)]; []]) 1 1.
Definition exrounds : list rdraw := map exround [1; 2; 3; 4; 5; 6].

Definition summary (x : outcome gstate) :=
  match x with
  | Ok st => Some (map (fun l => lv (lk l)) (g_comb st),
                   map (fun l => (visits l, exceeds l, accepts l, tries l)) (g_comb st),
                   (g_steps st, g_saves st, length (g_pool st)), g_sample st,
                   map (fun i => (i_lev i, lv (i_lik i), i_id i)) (g_info st))
  | _ => None
  end.

Definition vround_b (o : opts) (r : rdraw) : bool :=
  (length (r_steps r) =? o_tt o)%nat &&
  forallb (fun ds => (length ds =? o_ts o)%nat && forallb (fun d => d_which d <? o_np o)%nat ds) (r_steps r) &&
  (length (k_bad (r_kill r)) =? o_np o)%nat &&
  forallb (forallb (fun c => fst c <? o_np o)%nat) (k_cand (r_kill r)) &&
  (r_task r <? o_tt o)%nat && (r_part r <? o_np o)%nat.

Lemma vround_ok : forall o r, vround_b o r = true -> valid_round o r.
Proof.
  intros o r H. unfold vround_b in H. repeat (apply andb_true_iff in H; destruct H as [H ?]).
  constructor.
  - apply Nat.eqb_eq. assumption.
  - rewrite forallb_forall in H4. apply Forall_forall. intros ds Hds. specialize (H4 ds Hds).
    apply andb_true_iff in H4. destruct H4 as [A B]. split; [apply Nat.eqb_eq; exact A|].
    apply Forall_forall. intros d Hd. rewrite forallb_forall in B. apply Nat.ltb_lt. apply B. exact Hd.
  - split; [apply Nat.eqb_eq; assumption|]. apply Forall_forall. intros cs Hcs.
    rewrite forallb_forall in H2. specialize (H2 cs Hcs). apply Forall_forall. intros c Hc.
    rewrite forallb_forall in H2. apply Nat.ltb_lt. apply H2. exact Hc.
  - apply Nat.ltb_lt. assumption.
  - apply Nat.ltb_lt. assumption.
Qed.
Lemma vrounds_ok : forall o rs, forallb (vround_b o) rs = true -> Forall (valid_round o) rs.
Proof. intros o rs H. rewrite forallb_forall in H. apply Forall_forall. intros r Hr. apply vround_ok. auto. Qed.

Example exo_valid : valid_opts exo.
Proof. constructor; simpl; lia. Qed.
Example exinit_valid : valid_init exo exinit.
Proof. split; [reflexivity|repeat constructor]. Qed.
Example exrounds_valid : Forall (valid_round exo) exrounds.
Proof. apply vrounds_ok. vm_compute. reflexivity. Qed.


Example exrun : summary (run never exo exrounds (init_state exo exinit)) =
  Some ([Val (- DBL_MAX); Val 102; Val 201],
        [(5, 5, 9, 9); (4, 4, 3, 3); (0, 0, 0, 0)], (12, 3, 3%nat),
        [[Val 103]; [Val 203]; [Val 303]],
        [(0%nat, Val 103, 3); (1%nat, Val 203, 3); (1%nat, Val 303, 3)]).
Proof. vm_compute. reflexivity. Qed.

(** ** A run with compression 11/10 whose pool overflows. *)
Definition ovo : opts := mkopts 1 10 1 10 10 50 100 10 11 10 false 1.
Definition ovround (k : Z) : rdraw :=
  mkrd [map (fun j => dr 0 (100 * k + j) true (-1) true) [0;1;2;3;4;5;6;7;8;9]]
     (mkkill [false] [[]]) 0 0.
Definition ovinit : list (Z * list (list dbl * lik)) := [(0, [([Val 1], mklik (Val 1) 0)])].

Example ovrun9 : exists st, run never ovo (map ovround [1;2;3;4;5;6;7;8;9]) (init_state ovo ovinit) = Ok st.
Proof. eexists. vm_compute. reflexivity. Qed.

(** ** A run in which rejected proposals repeat a log-likelihood value. *)
Definition tio : opts := mkopts 1 4 1 4 4 10 100 10 2 1 false 1.
Definition tiround (vs : list (Z * bool)) : rdraw :=
  mkrd [map (fun v => dr 0 (fst v) (snd v) 0 false) vs] (mkkill [false] [[]]) 0 0.
Definition tirounds := [tiround [(5, true); (1, false); (1, false); (1, false)];
   tiround [(6, true); (1, false); (1, false); (1, false)];
   tiround [(7, true); (1, true); (1, true); (1, true)] ].

Example tirun : option_map (fun x => fst (fst (fst (fst x)))) (summary (run never tio tirounds (init_state tio ovinit))) =
  Some [Val (- DBL_MAX); Val 5; Val 6; Val 6].
Proof. vm_compute. reflexivity. Qed.

(** ** Save interval 2^31: the product (saves+1)*interval wraps. *)
Definition wro (n : nat) : opts := mkopts 1 n 1 n (2^31) 1 3 10 2 1 false 1.
Definition wrround (n : nat) : rdraw :=
  mkrd [repeat (dr 0 5 true 0 false) n] (mkkill [false] [[]]) 0 0.
Definition wrrounds (n : nat) : list rdraw := repeat (wrround n) (Z.to_nat 2049).
