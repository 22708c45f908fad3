(** Post-processing of the sampler's output, cdnest/dnestpostprocess.c, over
    the real numbers (rounding, overflow and underflow are not modelled). *)
From Coq Require Import Reals ZArith List Bool.
From Verif Require Import CPrelude SortModel.
Import ListNotations.
Open Scope R_scope.

(** A computed double: [None] stands for NaN or an infinity. *)
Definition nr := option R.

(** logdiffexp, cdnest/dnestpostprocess.c:35-41, with the exponential it calls
    as a parameter.  The logarithm of a non-positive number is not a real
    number. *)
Definition logdiffexp_with (ex : R -> R) (x1 x2 : R) : nr :=
  let d := ex (x1 - x1) - ex (x2 - x1) in
  if Rlt_dec 0 d then Some (ln d + x1) else None.
Definition logdiffexp := logdiffexp_with exp.

(** logsumexp, cdnest/dnestpostprocess.c:44-60: running fmax starting from
    x[0] (which does not exist when n = 0), then the sum; the exponential it
    calls is a parameter. *)
Definition logsumexp_with (ex : R -> R) (x : list R) : outcome R :=
  match x with
  | [] => UB
  | x0 :: _ =>
    let m := fold_left Rmax x x0 in
    let s := fold_left (fun acc v => acc + ex (v - m)) x 0 in
    Ok (ln s + m)
  end.
Definition logsumexp := logsumexp_with exp.

(** Row of the levels file: log X and log L (the tiebreaker is read but not
    used). *)
Record plevel := mkpl { pl_logX : R; pl_logL : R }.
(** Row of the sample-info file: level, log-likelihood, tiebreaker. *)
Record sinfo := mksi { si_level : Z; si_logl : R; si_tb : R }.

(** Clamping of the level, lines 157-158. *)
Definition clamp_level (num_levels : nat) (s : sinfo) : sinfo :=
  if (Z.of_nat num_levels - 1 <? si_level s)%Z
  then mksi (Z.of_nat num_levels - 1) (si_logl s) (si_tb s) else s.

(** Level assigned when the sample info is recalculated, lines 189-208: a
    random level below the first one whose likelihood exceeds the sample's.
    [rnd j] is dnest_rand_int(j). *)
Fixpoint first_above (logl : R) (levels : list plevel) : nat :=
  match levels with
  | [] => O
  | l :: r => if Rlt_dec logl (pl_logL l) then O else S (first_above logl r)
  end.
Definition recalc_level (rnd : nat -> nat) (logl : R) (levels : list plevel) : nat :=
  match first_above logl levels with O => O | j => rnd j end.

(** Sandwiching level, lines 219-230: the loop condition tests j, the body
    overwrites only sandwhich[i]. *)
Definition sandwich (levels : list plevel) (s : sinfo) : outcome nat :=
  if (si_level s <? 0)%Z then UB else
  let l0 := Z.to_nat (si_level s) in
  foldM (fun cur j =>
           l <- get levels j ;;
           Ok (if Rlt_dec (pl_logL l) (si_logl s) then j else cur))
        (seq l0 (length levels - l0)) l0.

(** SampleType, lines 26-30, and cmp_sample, lines 475-487. *)
Record member := mkm { m_logl : R; m_tb : R; m_id : nat }.
Definition cmp_member (a b : member) : Z :=
  if Rlt_dec (m_logl b) (m_logl a) then 1%Z
  else if Req_EM_T (m_logl a) (m_logl b) then
    if Rlt_dec (m_tb b) (m_tb a) then 1%Z else 0%Z
  else 0%Z.

(** Samples sandwiched by level [i], in file order, lines 258-267. *)
Definition members (sw : list nat) (info : list sinfo) (i : nat) : list member :=
  flat_map (fun x => let '(j, (s, w)) := x in
                     if Nat.eqb w i then [mkm (si_logl s) (si_tb s) j] else [])
           (combine (seq 0 (length info)) (combine info sw)).

(** logx_min of level [i], lines 250-253 (and 288-291). *)
Definition logx_bottom (levels : list plevel) (i : nat) : outcome R :=
  if Nat.eqb (i + 1) (length levels) then Ok (- IZR (10 ^ 300))
  else l <- get levels (i + 1) ;; Ok (pl_logX l).

(** U and the log prior mass, lines 271-276; [n] samples.  With [n = 1] the
    last factor is 0/0. *)
Definition mass_fraction (Umin : R) (n j : nat) : nr :=
  if Nat.eqb n 1 then None
  else Some (Umin + (1 - Umin) *
    (1 / (1 + INR n) + (1 - 2 / (1 + INR n)) * INR (n - 1 - j) / (INR n - 1))).
Definition logx_this (logx_max Umin : R) (n : nat) : list nr :=
  map (fun j => match mass_fraction Umin n j with
                | Some u => if Rlt_dec 0 u then Some (logx_max + ln u) else None
                | None => None
                end) (seq 0 n).

(** What is stored for position [j] of the sorted members of level [i], lines
    284-304: index of the sample, its log prior mass, its log prior weight. *)
Definition store_entry (top bottom : R) (xs : list nr) (n j : nat) (m : member)
  : outcome (nat * (nr * nr)) :=
  left <- (if Nat.eqb j (n - 1) then Ok (Some bottom) else get xs (j + 1)) ;;
  right <- (if Nat.eqb j 0 then Ok (Some top) else get xs (j - 1)) ;;
  x <- get xs j ;;
  let p := match right, left with
           | Some r, Some l => match logdiffexp r l with Some d => Some (ln (1 / 2) + d) | None => None end
           | _, _ => None
           end in
  Ok (m_id m, (x, p)).

(** Body of the loop over levels, lines 247-305.  The arrays logx_samples and
    logp_samples are one array of pairs here, [None] being uninitialised. *)
Definition do_level (levels : list plevel) (sw : list nat) (info : list sinfo)
  (arr : list (option (nr * nr))) (i : nat) : outcome (list (option (nr * nr))) :=
  l <- get levels i ;;
  bottom <- logx_bottom levels i ;;
  let ms := members sw info i in
  let n := length ms in
  let xs := logx_this (pl_logX l) (exp (bottom - pl_logX l)) n in
  let sorted := msort cmp_member ms in
  es <- mapM (fun jm => store_entry (pl_logX l) bottom xs n (fst jm) (snd jm))
             (combine (seq 0 n) sorted) ;;
  foldM (fun a e => put a (fst e) (Some (snd e))) es arr.

(** Reading an array that must have been written; a log prior weight that is
    not a real number is outside the model ([Stuck]). *)
Definition initialised {A} (x : option A) : outcome A := match x with Some a => Ok a | None => UB end.
Definition real_of (x : nr) : outcome R := match x with Some r => Ok r | None => Stuck end.

Record post := mkpost
  { po_logx : list nr;      (* logx_samples *)
    po_logp : list R;       (* normalised logp_samples *)
    po_logP : list R;       (* normalised logP_samples *)
    po_logl : list R;       (* tempered log-likelihoods *)
    po_logz : R; po_H : R; po_ESS : R;
    po_num_ps : Z;
    po_rel : list R }.      (* logP_samples - max *)

Definition lsub (x : R) (l : list R) : list R := map (fun v => v - x) l.

(** postprocess, cdnest/dnestpostprocess.c:157-158 and 215-365: everything
    between reading the tables and resampling.  moreSample is 1 (line 73). *)
Definition postprocess (temperature : R) (levels : list plevel) (info0 : list sinfo) : outcome post :=
  let info := map (clamp_level (length levels)) info0 in
  let logl := map (fun s => si_logl s / temperature) info in
  sw <- mapM (sandwich levels) info ;;
  arr <- foldM (do_level levels sw info) (seq 0 (length levels)) (repeat None (length info)) ;;
  vals <- mapM initialised arr ;;
  let logx := map fst vals in
  logp0 <- mapM real_of (map snd vals) ;;
  sum <- logsumexp logp0 ;;
  let logp := lsub sum logp0 in
  let logP0 := map (fun x => fst x + snd x) (combine logp logl) in
  logz <- logsumexp logP0 ;;
  let logP := lsub logz logP0 in
  let H := fold_left (fun acc x => acc + exp (fst x) * snd x) (combine logP logl) (- logz) in
  let ESS := exp (fold_left (fun acc p => acc + - p * exp p) logP 0) in
  let num_ps := Int_part ESS in
  p0 <- get logP 0 ;;
  let mx := fold_left (fun m p => Rmax p m) logP p0 in
  Ok (mkpost logx logp logP logl logz H ESS num_ps (lsub mx logP)).

(** Resampling, lines 367-379.  The draws (gsl_rng_uniform_int,
    gsl_rng_uniform) are a list; running out of it is [Stuck].  log(0) is
    minus infinity. *)
Definition log_below (u p : R) : bool :=
  if Req_EM_T u 0 then true else if Rlt_dec (ln u) p then true else false.
Fixpoint draw_one (rel : list R) (draws : list (nat * R)) : outcome (nat * list (nat * R)) :=
  match draws with
  | [] => Stuck
  | (which, u) :: r =>
    p <- get rel which ;;
    if log_below u p then Ok (which, r) else draw_one rel r
  end.
Fixpoint resample (rel logl : list R) (n : nat) (draws : list (nat * R)) : outcome (list (nat * R)) :=
  match n with
  | O => Ok []
  | S m => wr <- draw_one rel draws ;;
           l <- get logl (fst wr) ;;
           rest <- resample rel logl m (snd wr) ;;
           Ok ((fst wr, l) :: rest)
  end.

(** Picking the selected rows out of the sample file, lines 389-403: for every
    row of the file, for every selected index.  [None]: not written. *)
Definition pick_row {A} (idx : list nat) (out : list (option A)) (ir : nat * A) : outcome (list (option A)) :=
  foldM (fun o j => w <- get idx j ;;
                    if Nat.eqb w (fst ir) then put o j (Some (snd ir)) else Ok o)
        (seq 0 (length idx)) out.
Definition pick_rows {A} (rows : list A) (idx : list nat) : outcome (list A) :=
  out <- foldM (pick_row idx) (combine (seq 0 (length rows)) rows) (repeat None (length idx)) ;;
  mapM initialised out.

(** The two posterior files: announced number of rows and the rows, lines
    406-433. *)
Definition posterior_files {A} (rows : list A) (p : post) (draws : list (nat * R))
  : outcome ((Z * list A) * (Z * list R)) :=
  sel <- resample (po_rel p) (po_logl p) (Z.to_nat (po_num_ps p)) draws ;;
  out <- pick_rows rows (map fst sel) ;;
  Ok ((po_num_ps p, out), (po_num_ps p, map snd sel)).

(** weights.txt, lines 435-448: log prior mass, log-likelihood, weight. *)
Definition weights_file (info : list sinfo) (p : post) : list (nr * R * R) :=
  map (fun x => (fst (fst x), si_logl (snd (fst x)), exp (snd x)))
      (combine (combine (po_logx p) info) (po_rel p)).
