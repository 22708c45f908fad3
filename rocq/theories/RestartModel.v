(** Restart snapshots: writer and reader at the level of bytes, reassignment
    of levels, the restarted state, and when snapshots are written. *)
From Coq Require Import ZArith List Bool Lia.
From Verif Require Import CPrelude SortModel DnestModel.
Import ListNotations.
Open Scope Z_scope.

(** ** Bytes.  x86-64 is little-endian; a byte is an integer in [0,256). *)
Fixpoint le_bytes (n : nat) (x : Z) : list Z :=
  match n with O => [] | S m => x mod 256 :: le_bytes m (x / 256) end.
Fixpoint of_le (l : list Z) : Z :=
  match l with [] => 0 | b :: r => b + 256 * of_le r end.

(** Level as it lies in memory, cdnest/dnestvars.h:35-47: seven 8-byte words
    (value, tiebreaker, log_X, visits, exceeds, accepts, tries). *)
Record rawlevel := mkraw
  { w_val : Z; w_tb : Z; w_logX : Z; w_visits : Z; w_exceeds : Z; w_accepts : Z; w_tries : Z }.

(** What dnest_save_restart writes.  [s_assign] lists for all particles of all
    tasks (task 0 first) the level and the likelihood (value, tiebreaker);
    [s_limits] one row of (lower, upper) per level; [s_parts] the parameters
    of all particles.  Doubles are 64-bit words. *)
Record snap := mksnap
  { s_saves : Z; s_steps : Z; s_levels : list rawlevel;
    s_assign : list (Z * (Z * Z)); s_limits : list (list (Z * Z)); s_parts : list (list Z) }.

Definition wlevel (l : rawlevel) : list Z :=
  le_bytes 8 (w_val l) ++ le_bytes 8 (w_tb l) ++ le_bytes 8 (w_logX l) ++
  le_bytes 8 (w_visits l) ++ le_bytes 8 (w_exceeds l) ++ le_bytes 8 (w_accepts l) ++
  le_bytes 8 (w_tries l).
Definition wassign (a : Z * (Z * Z)) : list Z :=
  le_bytes 4 (fst a) ++ le_bytes 8 (fst (snd a)) ++ le_bytes 8 (snd (snd a)).
Definition wpair (p : Z * Z) : list Z := le_bytes 8 (fst p) ++ le_bytes 8 (snd p).

(** dnest_save_restart, cdnest/dnest.c:1828-1879.  sizeof(int) is 4 also for
    the 8-byte step counter. *)
Definition write_snap (lim : bool) (s : snap) : list Z :=
  le_bytes 4 (s_saves s) ++ le_bytes 4 (s_steps s) ++
  le_bytes 4 (Z.of_nat (length (s_levels s))) ++
  flat_map wlevel (s_levels s) ++ flat_map wassign (s_assign s) ++
  (if lim then flat_map (flat_map wpair) (s_limits s) else []) ++
  flat_map (flat_map (le_bytes 8)) (s_parts s).

(** ** Reading.  An fread that finds too few bytes leaves its target
    uninitialised (results are never checked): [UB].  fseek may go past the
    end. *)
Definition rdr (A : Type) := list Z -> outcome (A * list Z).
Definition rbind {A B} (m : rdr A) (f : A -> rdr B) : rdr B :=
  fun bs => x <- m bs ;; f (fst x) (snd x).
Definition rret {A} (a : A) : rdr A := fun bs => Ok (a, bs).
Definition rd (n : nat) : rdr Z :=
  fun bs => if (length bs <? n)%nat then UB else Ok (of_le (firstn n bs), skipn n bs).
Definition seek (n : nat) : rdr unit := fun bs => Ok (tt, skipn n bs).
Fixpoint rtimes {A} (n : nat) (m : rdr A) : rdr (list A) :=
  match n with
  | O => rret []
  | S n' => rbind m (fun a => rbind (rtimes n' m) (fun r => rret (a :: r)))
  end.
(** Loop [for(i=0; i<n; i++)] that reads while [i < keep] and skips [sz] bytes
    afterwards. *)
Fixpoint rkeep {A} (n i keep : nat) (m : rdr A) (sz : nat) : rdr (list A) :=
  match n with
  | O => rret []
  | S n' =>
    if (i <? keep)%nat
    then rbind m (fun a => rbind (rkeep n' (S i) keep m sz) (fun r => rret (a :: r)))
    else rbind (seek sz) (fun _ => rkeep n' (S i) keep m sz)
  end.

Definition rlevel : rdr rawlevel :=
  rbind (rd 8) (fun a => rbind (rd 8) (fun b => rbind (rd 8) (fun c =>
  rbind (rd 8) (fun d => rbind (rd 8) (fun e => rbind (rd 8) (fun f =>
  rbind (rd 8) (fun g => rret (mkraw a b c d e f g)))))))).
Definition rassign : rdr (Z * (Z * Z)) :=
  rbind (rd 4) (fun a => rbind (rd 8) (fun b => rbind (rd 8) (fun c => rret (a, (b, c))))).
Definition rpair : rdr (Z * Z) :=
  rbind (rd 8) (fun a => rbind (rd 8) (fun b => rret (a, b))).

(** Level limit applied on reading, dnest.c:1922-1948 (int against unsigned;
    counts of 2^31 and more would be negative ints, then nothing is read into
    the table: UB). *)
Definition kept (maxl : nat) (n : Z) : outcome nat :=
  if 2^31 <=? n then UB
  else match maxl with
       | O => if Z.of_nat LEVEL_NUM_MAX <? n then Exit else Ok (Z.to_nat n)
       | _ => if Z.of_nat maxl <? n then Ok maxl else Ok (Z.to_nat n)
       end.

(** dnest.c:1966-1970: [> size_levels - 1] in unsigned arithmetic. *)
Definition clamp (size : nat) (a : Z * (Z * Z)) : Z * (Z * Z) :=
  let top := u32 (Z.of_nat size - 1) in
  (if top <? fst a then top else fst a, snd a).

(** dnest_restart, dnest.c:1893-2035 (reading, the count test). [n] is the
    number of particles over all tasks. *)
Definition read_snap (lim : bool) (dim n : nat) (maxl : nat) (maxs : Z) (bs : list Z) : outcome snap :=
  x <- rbind (rd 4) (fun saves => rbind (rd 4) (fun steps => rbind (rd 4) (fun nl bs =>
       k <- kept maxl nl ;;
       rbind (rkeep (Z.to_nat nl) 0 k rlevel 56) (fun levels =>
       rbind (rtimes n rassign) (fun asg =>
       rbind (if lim then rkeep (Z.to_nat nl) 0 k (rtimes dim rpair) (8 * 2 * dim) else rret []) (fun lims =>
       rbind (rtimes n (rtimes dim (rd 8))) (fun parts =>
       rret (mksnap saves steps levels (map (clamp k) asg) lims parts))))) bs))) bs ;;
  let s := fst x in
  if maxs <? s_saves s then Exit else Ok s.

(** ** From words to the state of the sampler model *)

(** Signed bit pattern (order embedding of doubles, see CPrelude); patterns
    above infinity are NaN. *)
Definition code (w : Z) : Z := if w <? 2^63 then w else - (w - 2^63).
Definition dbl_of (w : Z) : dbl :=
  if INF <? Z.abs (code w) then NaN else Val (code w).
Definition lik_of (p : Z * Z) : lik := mklik (dbl_of (fst p)) (code (snd p)).
Definition level_of (l : rawlevel) : level :=
  mklevel (lik_of (w_val l, w_tb l)) (w_visits l) (w_exceeds l) (w_accepts l) (w_tries l).
Definition row_of (r : list (Z * Z)) : list (dbl * dbl) :=
  map (fun p => (dbl_of (fst p), dbl_of (snd p))) r.
Definition part_of (a : Z * (Z * Z)) (p : list Z) : particle :=
  mkpart (map dbl_of p) (lik_of (snd a)) (Z.to_nat (fst a)).
Fixpoint zipw {A B C} (f : A -> B -> C) (l : list A) (m : list B) : list C :=
  match l, m with a :: l', b :: m' => f a b :: zipw f l' m' | _, _ => [] end.
Definition all_parts (s : snap) : list particle := zipw part_of (s_assign s) (s_parts s).

(** MPI_Scatter: the first [n] elements to task 0, the next [n] to task 1, ... *)
Fixpoint scatter {A} (tt n : nat) (l : list A) : list (list A) :=
  match tt with O => [] | S t => firstn n l :: scatter t n (skipn n l) end.

(** dnest.c:2047-2062: [while(logL < levels[a].logL) a--]; below level 0 the
    unsigned index wraps to 2^32-1, outside the table. *)
Fixpoint reassign (ls : list level) (v : dbl) (a : nat) : outcome nat :=
  l <- get ls a ;;
  if dlt v (lv (lk l)) then match a with O => UB | S a' => reassign ls v a' end
  else Ok a.

(** One particle after re-evaluation; the tiebreaker is kept. *)
Definition reeval (ls : list level) (p : particle) (v : dbl) : outcome particle :=
  a <- reassign ls v (plev p) ;; Ok (mkpart (pm p) (mklik v (tb (plik p))) a).
Fixpoint zipM {A B C} (f : A -> B -> outcome C) (l : list A) (m : list B) : outcome (list C) :=
  match l, m with
  | [], [] => Ok []
  | a :: l', b :: m' => c <- f a b ;; r <- zipM f l' m' ;; Ok (c :: r)
  | _, _ => Stuck
  end.

(** The state at the top of dnest_run after dnest_restart.  [vs] are the
    re-evaluated log-likelihoods (log_likelihoods_cal_restart) of each task.
    The pool is empty (setup, dnest.c:1121).  The output files are opened for
    appending: [g_sample] and [g_info] are the rows of this session only.  *)
Definition restart_state (o : opts) (s : snap) (vs : list (list dbl)) : outcome gstate :=
  let ls := map level_of (s_levels s) in
  let lims := map row_of (s_limits s) ++
              skipn (length (s_limits s)) (repeat (repeat (Val DBL_MAX, Val (- DBL_MAX)) (o_dim o)) (alloc o)) in
  ts <- zipM (fun ps v => ps' <- zipM (reeval ls) ps v ;; Ok (mktask ps' ls [] lims))
          (scatter (o_tt o) (o_np o) (all_parts s)) vs ;;
  Ok (mkg ts ls [] (o_maxl o) (s_steps s) (s_saves s) [] []).

Definition restart (o : opts) (bs : list Z) (vs : list (list dbl)) : outcome gstate :=
  s <- read_snap (o_lim o) (o_dim o) (o_tt o * o_np o) (o_maxl o) (o_maxs o) bs ;;
  restart_state o s vs.

(** ** When snapshots are written: dnest.c:376-379 and 387-395.  [start] is
    count_start, [nsr] is num_saves_restart. *)
Section Snaps.
Variable ptol_ok : list dbl -> bool.
Variable o : opts.
Variables start nsr : Z.
Definition snap_due (st : gstate) : bool := (u32 (g_saves st - start)) mod nsr =? 0.
Fixpoint run_snaps (rs : list rdraw) (st : gstate) (hist : list gstate) : outcome (gstate * list gstate) :=
  match rs with
  | [] => Ok (st, hist)
  | r :: rs' =>
    if terminated o st then Ok (st, hist)
    else
      st1 <- round_core ptol_ok o st r ;;
      if save_due o (g_steps st1) (g_saves st1)
      then st' <- save_particle o st1 r ;;
           run_snaps rs' st' (if snap_due st' then hist ++ [st'] else hist)
      else run_snaps rs' st1 hist
  end.
(** After the loop. *)
Definition final_snaps (st : gstate) (hist : list gstate) : list gstate :=
  if snap_due st then hist else hist ++ [st].
End Snaps.
