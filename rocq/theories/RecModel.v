(** Reconstruction of the light curves from the posterior sample:
    distribution of the sample over the tasks, sums, means and spreads
    (src/mc_line.c:172-585), the times of reconstruction, and the
    normalisation of the data (src/read.c:1087-1325).

    The sums are written once for any kind of number ([arith]), so that they can
    be read both with real numbers and with IEEE doubles. *)
From Coq Require Import Reals ZArith List Bool Arith.
From Coq Require Import Floats.SpecFloat.
From Verif Require Import CPrelude SemisepModel.
Import ListNotations.
Open Scope nat_scope.

Record arith (F : Type) := Arith {
  a0 : F; aadd : F -> F -> F; asub : F -> F -> F; amul : F -> F -> F; adiv : F -> F -> F;
  asqrt : F -> F; amax : F -> F -> F; aofnat : nat -> F }.
Arguments a0 {F} _. Arguments aadd {F} _. Arguments asub {F} _. Arguments amul {F} _.
Arguments adiv {F} _. Arguments asqrt {F} _. Arguments amax {F} _. Arguments aofnat {F} _.

Definition Rarith : arith R := Arith R 0%R Rplus Rminus Rmult Rdiv sqrt Rmax INR.

(** IEEE binary64, round to nearest even; [fmax] ignores a NaN argument. *)
Definition d_lt (x y : spec_float) : bool := match SFcompare x y with Some Lt => true | _ => false end.
Definition d_fmax (x y : spec_float) : spec_float :=
  match x, y with
  | S754_nan, _ => y
  | _, S754_nan => x
  | _, _ => if d_lt x y then y else x
  end.
Definition d_ofnat (n : nat) : spec_float := binary_normalize 53 1024 (Z.of_nat n) 0 false.
Definition Darith : arith spec_float :=
  Arith spec_float (S754_zero false) (SFadd 53 1024) (SFsub 53 1024) (SFmul 53 1024) (SFdiv 53 1024)
        (SFsqrt 53 1024) d_fmax d_ofnat.

(** Part of an array; reading beyond its end is undefined behaviour. *)
Definition slice {A} (l : list A) (at_ n : nat) : outcome (list A) :=
  if at_ + n <=? length l then Ok (firstn n (skipn at_ l)) else UB.
(** Copying [d] into the array [l] from index [at_] on. *)
Definition blit {A} (l : list A) (at_ : nat) (d : list A) : outcome (list A) :=
  if at_ + length d <=? length l then Ok (firstn at_ l ++ d ++ skipn (at_ + length d) l) else UB.

(** ** Distribution, src/mc_line.c:258-286.  [all] is posterior_sample_all of task
    0 (roottask), [T] is totaltask. *)
Definition ps_average (num_ps T : nat) : nat := num_ps / T.
Definition ps_task (num_ps T r : nat) : nat :=
  if r =? 0 then num_ps - ps_average num_ps T * (T - 1) else ps_average num_ps T.
(** MPI_Scatter gives task [r] the [r]-th segment of the send buffer, which starts
    at post_model + (num_ps_task - num_ps_task_average)*num_params. *)
Definition scatter_part {F} (num_ps np T r : nat) (all : list F) : outcome (list F) :=
  slice all ((ps_task num_ps T 0 - ps_average num_ps T) * np + r * (ps_average num_ps T * np)) (ps_average num_ps T * np).
(** posterior_sample_task after the scatter and, on task 0, after the memcpy; [junk]
    is the unspecified content of the fresh memory. *)
Definition task_sample {F} (junk : F) (num_ps np T r : nat) (all : list F) : outcome (list F) :=
  let buf := repeat junk (ps_task num_ps T r * np) in
  part <- scatter_part num_ps np T r all ;;
  buf <- blit buf 0 part ;;
  if r =? 0 then
    first <- slice all 0 ((ps_task num_ps T 0 - ps_average num_ps T) * np) ;;
    blit buf (ps_average num_ps T * np) first
  else Ok buf.

(** ** Sums, src/mc_line.c:382-457. *)
Definition updF {F} (a : nat -> F) (i : nat) (v : F) : nat -> F := fun k => if Nat.eqb k i then v else a k.
(** What reconstruct_line_from_varmodel3 leaves in fall, feall and yq. *)
Record recon (F : Type) := Recon { rf : nat -> F; rfe : nat -> F; ry : nat -> F }.
Arguments Recon {F}. Arguments rf {F}. Arguments rfe {F}. Arguments ry {F}.
(** fall_best, fall_std, feall_max, yq_best, yq_std of one set *)
Record sums (F : Type) := Sums { fb : nat -> F; fs : nat -> F; fm : nat -> F; yb : nat -> F; ys : nat -> F }.
Arguments Sums {F}. Arguments fb {F}. Arguments fs {F}. Arguments fm {F}. Arguments yb {F}. Arguments ys {F}.

Section Sums.
Variable F : Type.
Variable ops : arith F.
(** src/mc_line.c:411-416 and 423-427 *)
Definition add_point (r : recon F) (k : nat) (s : sums F) : sums F :=
  Sums (updF (fb s) k (aadd ops (fb s k) (rf r k)))
       (updF (fs s) k (aadd ops (fs s k) (amul ops (rf r k) (rf r k))))
       (updF (fm s) k (amax ops (fm s k) (rfe r k))) (yb s) (ys s).
(** src/mc_line.c:431-435 *)
Definition add_trend (r : recon F) (k : nat) (s : sums F) : sums F :=
  Sums (fb s) (fs s) (fm s) (updF (yb s) k (aadd ops (yb s k) (ry r k)))
       (updF (ys s) k (aadd ops (ys s k) (amul ops (ry r k) (ry r k)))).
(** src/mc_line.c:410-435: one set, one row.  [nall] lists nall[i][0..nlset], the
    continuum first; the counter np runs over the curves. *)
Definition add_row (nall : list nat) (nq : nat) (r : recon F) (s : sums F) : sums F :=
  let s := snd (fold_left (fun c n => let '(np, s) := c in (np + n, for_ np n (add_point r) s)) nall (0, s)) in
  for_ 0 (nq * length nall) (add_trend r) s.
Definition sums0 : sums F :=
  Sums (fun _ => a0 ops) (fun _ => a0 ops) (fun _ => a0 ops) (fun _ => a0 ops) (fun _ => a0 ops).
(** Loop over the rows of a task, src/mc_line.c:389-439, for one set (the sets are
    independent); [rec] maps a row to its reconstruction (in pmap mode including
    the transformation of the row). *)
Definition task_sums (num_ps np T r : nat) (nall : list nat) (nq : nat) (rec : list F -> recon F) (buf : list F) : outcome (sums F) :=
  fold_left (fun acc m => s <- acc ;; row <- slice buf (m * np) np ;; Ok (add_row nall nq (rec row) s))
            (seq 0 (ps_task num_ps T r)) (Ok sums0).
(** MPI_Reduce: the values of the tasks are combined in some order. *)
Definition reduce (op : F -> F -> F) (vals : list F) : F :=
  match vals with [] => a0 ops | v :: r => fold_left op r v end.
Fixpoint sequence {A} (l : list (outcome A)) : outcome (list A) :=
  match l with
  | [] => Ok []
  | x :: r => a <- x ;; r <- sequence r ;; Ok (a :: r)
  end.
(** All tasks and the reductions, src/mc_line.c:441-449; [order] is the order in
    which the library combines the tasks. *)
Definition reduced (junk : F) (num_ps np T : nat) (order : list nat) (nall : list nat) (nq : nat) (rec : list F -> recon F) (all : list F) : outcome (sums F) :=
  parts <- sequence (map (fun r => buf <- task_sample junk num_ps np T r all ;; task_sums num_ps np T r nall nq rec buf) order) ;;
  Ok (Sums (fun k => reduce (aadd ops) (map (fun s => fb s k) parts))
           (fun k => reduce (aadd ops) (map (fun s => fs s k) parts))
           (fun k => reduce (amax ops) (map (fun s => fm s k) parts))
           (fun k => reduce (aadd ops) (map (fun s => yb s k) parts))
           (fun k => reduce (aadd ops) (map (fun s => ys s k) parts))).
(** src/mc_line.c:484-490 *)
Definition best_of (num_ps : nat) (b : F) : F := adiv ops b (aofnat ops num_ps).
Definition std_of (num_ps : nat) (b s : F) : F :=
  asqrt ops (asub ops (adiv ops s (aofnat ops num_ps)) (amul ops (best_of num_ps b) (best_of num_ps b))).
(** Rows written to pall.txt (src/mc_line.c:492-505) and trend.txt (507-519) for one
    set: per curve the pairs value, spread; [scale] are con.scale, line[j].scale. *)
Fixpoint curves_out (num_ps : nat) (s : sums F) (np : nat) (nall : list nat) (scale : list F) : list (list (F * F)) :=
  match nall, scale with
  | n :: nall', c :: scale' =>
      map (fun k => (amul ops (best_of num_ps (fb s (np + k))) c,
                     amul ops (amax ops (std_of num_ps (fb s (np + k)) (fs s (np + k))) (fm s (np + k))) c)) (seq 0 n)
      :: curves_out num_ps s (np + n) nall' scale'
  | _, _ => []
  end.
Fixpoint trend_out (num_ps nq : nat) (s : sums F) (j : nat) (scale : list F) : list (F * F) :=
  match scale with
  | [] => []
  | c :: scale' =>
      map (fun k => (amul ops (best_of num_ps (yb s (j * nq + k))) c,
                     amul ops (std_of num_ps (yb s (j * nq + k)) (ys s (j * nq + k))) c)) (seq 0 nq)
      ++ trend_out num_ps nq s (S j) scale'
  end.
(** The whole routine for one set. *)
Definition reconstruction (junk : F) (num_ps np T : nat) (order : list nat) (nall : list nat) (nq : nat) (scale : list F)
  (rec : list F -> recon F) (all : list F) : outcome (list (list (F * F)) * list (F * F)) :=
  s <- reduced junk num_ps np T order nall nq rec all ;;
  Ok (curves_out num_ps s 0 nall scale, trend_out num_ps nq s 0 scale).
End Sums.
Arguments reconstruction {F}. Arguments reduced {F}. Arguments task_sums {F}. Arguments add_row {F}.
Arguments add_point {F}. Arguments add_trend {F}. Arguments sums0 {F}. Arguments reduce {F}.
Arguments best_of {F}. Arguments std_of {F}. Arguments curves_out {F}. Arguments trend_out {F}. Arguments sequence {A}.

Open Scope R_scope.
(** ** Times of reconstruction, src/mc_line.c:303-308 and 346-379, over the reals.
    [con] and [lines] are the times of the curves of one set.  The result holds one
    grid per curve; [None] is NaN (with one point: 0 times the infinite
    tspan/(1-1.0)).  nscale is 3 (src/init.c:135). *)
Definition rec_count (con_n nd_rec : nat) : nat := Nat.min (con_n * 3) nd_rec.
(** t[n-1]: index -1 for an empty curve is outside the array. *)
Definition last_ (t : list R) : outcome R := match t with [] => UB | _ => get t (length t - 1) end.
Fixpoint rec_span (lines : list (list R)) (tbeg tend : R) : outcome (R * R) :=
  match lines with
  | [] => Ok (tbeg, tend)
  | l :: r => b <- get l 0 ;; e <- last_ l ;; rec_span r (Rmin tbeg b) (Rmax tend e)
  end.
Definition rec_times (con : list R) (lines : list (list R)) (nd_rec : nat) (low_ext upp_ext : R) : outcome (list (list (option R))) :=
  b <- get con 0 ;;
  e <- last_ con ;;
  be <- rec_span lines b e ;;
  let tbeg := fst be + low_ext in
  let tend := snd be + upp_ext in
  let tspan := tend - tbeg in
  let tbeg := tbeg - 5 / 100 * tspan in
  let tend := tend + 5 / 100 * tspan in
  let tspan := tend - tbeg in
  let n := rec_count (length con) nd_rec in
  Ok (repeat (map (fun j => if (n =? 1)%nat then None else Some (tspan / (INR n - 1) * INR j + tbeg)) (seq 0 n)) (1 + length lines)).

(** ** Normalisation, scale_con_line, src/read.c:1087-1325, over the reals.  A curve
    is its list of (flux, error); a set is the continuum and the lines. *)
Definition curve := list (R * R).
(** The loop computing sum, fdmax and fdmin. *)
Definition scan (c : curve) (f0 : R) : R * R * R :=
  fold_left (fun s p => let '(m, mx, mn) := s in
    (m + fst p, if Rlt_dec mx (fst p) then fst p else mx, if Rlt_dec (fst p) mn then fst p else mn)) c (0, f0, f0).
(** mean and Rmax, with fdmin and fdmax; f[0] of an empty curve is read out of
    bounds. *)
Definition curve_stats (c : curve) : outcome (R * R * R * R) :=
  f <- get c 0 ;;
  let '(m, mx, mn) := scan c (fst f) in
  Ok (m / INR (length c), (mx - mn) / 2, mn, mx).
(** First pass, src/read.c:1114-1186: exits, or the value of flag_norm. *)
Definition check_curve (c : curve) (flag : bool) : outcome bool :=
  s <- curve_stats c ;;
  let '(mean, Rmax, _, _) := s in
  if Rle_dec mean 0 then Exit
  else if Req_EM_T Rmax 0 then Exit
  else if Rlt_dec mean (Rmax / 100) then Ok true
  else Ok flag.
Fixpoint check_lines (ls : list curve) (flag : bool) : outcome bool :=
  match ls with
  | [] => Ok flag
  | [] :: r => check_lines r flag
  | l :: r => flag <- check_curve l flag ;; check_lines r flag
  end.
Fixpoint first_pass (vmap : bool) (sets : list (curve * list curve)) (flag : bool) : outcome bool :=
  match sets with
  | [] => Ok flag
  | (con, ls) :: r =>
      flag <- (if vmap then Ok flag else check_curve con flag) ;;
      flag <- check_lines ls flag ;;
      first_pass vmap r flag
  end.
(** Second pass, src/read.c:1191-1322.  A row of normalization.txt: set, curve, and
    the value of the C variable [scale], [None] while it is uninitialised. *)
Definition norm_row : Type := nat * nat * option R.
(** A normalised curve: its factor, its points, its entries of flux_minmax (None where
    they are not set). *)
Record ncurve := NCurve { nscale_ : R; npts : curve; nminmax : option (R * R) }.
Definition scale_curve (uniform flag : bool) (c : curve) : outcome ncurve :=
  s <- curve_stats c ;;
  let '(mean, Rmax, mn, mx) := s in
  let scale := if uniform then 1 else if flag then Rmax else mean in
  Ok (NCurve scale (map (fun p => (fst p / scale, snd p / scale)) c) (Some ((mn + mx) / 2 / scale, (mx - mn) / 2 / scale))).
Fixpoint scale_lines (uniform flag : bool) (i j : nat) (ls : list curve) (var : option R) : outcome (list ncurve * list norm_row * option R) :=
  match ls with
  | [] => Ok ([], [], var)
  | [] :: r =>
      x <- scale_lines uniform flag i (S j) r var ;;
      let '(cs, rows, var') := x in Ok (NCurve 1 [] None :: cs, rows, var')
  | l :: r =>
      c <- scale_curve uniform flag l ;;
      x <- scale_lines uniform flag i (S j) r (Some (nscale_ c)) ;;
      let '(cs, rows, var') := x in Ok (c :: cs, (i, S j, Some (nscale_ c)) :: rows, var')
  end.
Fixpoint second_pass (vmap uniform flag : bool) (i : nat) (sets : list (curve * list curve)) (var : option R) : outcome (list (list ncurve) * list norm_row) :=
  match sets with
  | [] => Ok ([], [])
  | (con, ls) :: r =>
      cv <- (if vmap then Ok (NCurve 1 con None, var)
             else c <- scale_curve uniform flag con ;; Ok (c, Some (nscale_ c))) ;;
      x <- scale_lines uniform flag i 0 ls (snd cv) ;;
      let '(cs, rows, var') := x in
      y <- second_pass vmap uniform flag (S i) r var' ;;
      Ok ((fst cv :: cs) :: fst y, (i, 0%nat, snd cv) :: rows ++ snd y)
  end.
(** [uniform]: flag_uniform_tranfuns == 1 || flag_uniform_var_params == 1. *)
Definition scale_con_line (vmap uniform : bool) (sets : list (curve * list curve)) : outcome (list (list ncurve) * list norm_row) :=
  flag <- first_pass vmap sets false ;;
  second_pass vmap uniform flag 0 sets None.
