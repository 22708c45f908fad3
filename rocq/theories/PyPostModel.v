(** The weights and the evidence as postprocess.py computes them, over the
    real numbers.  Plots and reading of the files are left out; as many rows
    of samples as of sample information are assumed (lines 72-76 cut both to
    the shorter one).  A file of levels or of sample information with a single
    row is a one-dimensional array for genfromtxt and is refused by the
    indexing later on; that is not modelled. *)
From Coq Require Import Reals ZArith List Bool Arith.
From Verif Require Import CPrelude SortModel PostModel.
Import ListNotations.
Open Scope R_scope.

(** np.sum. *)
Definition np_sum (l : list R) : R := fold_left Rplus l 0.

(** logsumexp, postprocess.py:15-19; np.max of nothing raises. *)
Definition py_logsumexp (values : list R) : outcome R :=
  match values with
  | [] => Exit
  | v :: r =>
    let biggest := fold_left Rmax r v in
    Ok (ln (np_sum (map exp (map (fun x => x - biggest) values))) + biggest)
  end.

(** The comparison of line 119, [(logl, tiebreaker, i) > (logl, tiebreaker)]:
    the first differing member decides; if the two that both have are equal
    the longer tuple is the greater one. *)
Definition py_exceeds (L tb : R) (row : R * R) : bool :=
  if Req_EM_T L (fst row) then
    if Req_EM_T tb (snd row) then true
    else if Rlt_dec (snd row) tb then true else false
  else if Rlt_dec (fst row) L then true else false.

(** The while loop of lines 119-120; [fuel] bounds the turns. *)
Fixpoint py_climb (fuel : nat) (rows : list (R * R)) (L tb : R) (cur : nat) : outcome nat :=
  match fuel with
  | O => Stuck
  | S f =>
    if Nat.ltb cur (length rows - 1) then
      r <- get rows (cur + 1) ;;
      if py_exceeds L tb r then py_climb f rows L tb (cur + 1) else Ok cur
    else Ok cur
  end.

(** Sandwiching levels, lines 108-109 and 117-120.  A negative level is
    outside the model. *)
Definition py_sandwich (levels : list plevel) (tbs : list R) (s : sinfo) : outcome nat :=
  if (si_level s <? 0)%Z then Stuck else
  let rows := combine (map pl_logL levels) tbs in
  py_climb (S (length rows)) rows (si_logl s) (si_tb s) (Z.to_nat (si_level s)).

(** np.diff and np.cumsum. *)
Fixpoint np_diff (l : list R) : list R :=
  match l with
  | a :: ((b :: _) as r) => (b - a) :: np_diff r
  | _ => []
  end.
Fixpoint np_cumsum (acc : R) (l : list R) : list R :=
  match l with [] => [] | x :: r => (acc + x) :: np_cumsum (acc + x) r end.

(** The log prior masses of the levels, lines 123-128, with
    compression_bias_min 1 and compression_scatter 0 (lines 31-32); [u] is
    the uniform draw, [g k] the k-th normal one. *)
Definition py_masses (u : R) (g : nat -> R) (xs : list R) : list R :=
  let c := map Ropp (np_diff xs) in
  let c := map (fun v => v * (1 + (1 - 1) * u)) c in
  let c := map (fun kv => snd kv * exp (0 * g (fst kv))) (combine (seq 0 (length c)) c) in
  match xs with
  | [] => []
  | x :: _ => np_cumsum 0 (x :: map Ropp c)
  end.
Definition py_levels (u : R) (g : nat -> R) (levels : list plevel) : list plevel :=
  map (fun x => mkpl (fst x) (pl_logL (snd x))) (combine (py_masses u g (map pl_logX levels)) levels).

(** Comparison of two tuples (logl, tiebreaker, index) in sorted(), line 135:
    positive if the first one is the greater. *)
Definition py_cmp (a b : member) : Z :=
  if Req_EM_T (m_logl a) (m_logl b) then
    if Req_EM_T (m_tb a) (m_tb b) then (if Nat.ltb (m_id b) (m_id a) then 1%Z else 0%Z)
    else if Rlt_dec (m_tb b) (m_tb a) then 1%Z else 0%Z
  else if Rlt_dec (m_logl b) (m_logl a) then 1%Z else 0%Z.

(** np.linspace: the last point is set to the end, one point is the start. *)
Definition np_linspace (start stop : R) (n : nat) : list R :=
  map (fun k => if Nat.eqb n 1 then start
                else if Nat.eqb k (n - 1) then stop
                else INR k * ((stop - start) / INR (n - 1)) + start) (seq 0 n).

(** np.sort on real numbers. *)
Definition real_cmp (a b : R) : Z := if Rlt_dec b a then 1%Z else 0%Z.
Definition np_sort (l : list R) : list R := msort real_cmp l.

(** U and the log prior masses, lines 147-152: descending order.  Without
    samples U is empty.  The logarithm of a number that is not positive is
    outside the model. *)
Definition py_logx (top Umin : R) (n : nat) : outcome (list R) :=
  let U := map (fun v => Umin + (1 - Umin) * v)
               (np_linspace (1 / (INR n + 1)) (1 - 1 / (INR n + 1)) n) in
  xs <- mapM (fun u => if Rlt_dec 0 u then Ok (top + ln u) else Stuck) U ;;
  Ok (rev (np_sort xs)).

(** The body of the loop over levels, lines 131-169.  [members] is the
    selection of lines 131-134, [logx_bottom] that of lines 140-143 and
    159-162, [store_entry] lines 154-169 (logdiffexp, lines 21-26, is the one
    of the C code); the two arrays are one array of pairs. *)
Definition py_level (levels : list plevel) (sw : list nat) (info : list sinfo)
  (arr : list (nr * nr)) (i : nat) : outcome (list (nr * nr)) :=
  l <- get levels i ;;
  bottom <- logx_bottom levels i ;;
  let ms := msort py_cmp (members sw info i) in
  let n := length ms in
  xs <- py_logx (pl_logX l) (exp (bottom - pl_logX l)) n ;;
  es <- mapM (fun jm => store_entry (pl_logX l) bottom (map Some xs) n (fst jm) (snd jm))
             (combine (seq 0 n) ms) ;;
  foldM (fun a e => put a (fst e) (snd e)) es arr.

Record pypost := mkpypost
  { pp_logx : list nr; pp_logp : list R; pp_logP : list R; pp_weights : list R;
    pp_logz : R; pp_H : R; pp_ESS : R }.

(** Lines 171-178 and 220-226, with one resampling (numResampleLogX is 1, so
    the means are those of one number). *)
Definition py_finish (temperature : R) (info : list sinfo) (arr : list (nr * nr)) : outcome pypost :=
  let logl := map (fun s => si_logl s / temperature) info in
  logp0 <- mapM real_of (map snd arr) ;;
  sum <- py_logsumexp logp0 ;;
  let logp := map (fun v => v - sum) logp0 in
  let logP0 := map (fun x => fst x + snd x) (combine logp logl) in
  logz <- py_logsumexp logP0 ;;
  let logP := map (fun v => v - logz) logP0 in
  let P := map exp logP in
  let H := - logz + np_sum (map (fun x => fst x * snd x) (combine P logl)) in
  let w := map (fun v => v / np_sum P) P in
  let ESS := exp (- np_sum (map (fun v => v * ln (v + / IZR (10 ^ 300))) w)) in
  Ok (mkpypost (map fst arr) logp logP w logz H ESS).

(** postprocess, postprocess.py:79-80 and 108-226: the levels are clamped to
    the last one, the arrays start from zeros. *)
Definition py_postprocess (u : R) (g : nat -> R) (temperature : R) (levels : list plevel) (tbs : list R)
  (info0 : list sinfo) : outcome pypost :=
  let info := map (clamp_level (length levels)) info0 in
  sw <- mapM (py_sandwich levels tbs) info ;;
  arr <- foldM (py_level (py_levels u g levels) sw info) (seq 0 (length levels))
               (repeat (Some 0, Some 0) (length info)) ;;
  py_finish temperature info arr.
