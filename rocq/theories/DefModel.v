(** What the sampler does by itself when the caller hands over no function of their own:
    cdnest/dnest.c:1629-1650 (version), 1653-1727 (functions not given) and 2065-2164 (draws
    from the prior and steps).  MICA2 gives its own functions; these belong to the library.
    Real arithmetic; the numbers returned by the random generator are arguments.  The text
    printed for a missing function is left out. *)
From Coq Require Import Reals ZArith List Bool Arith.
From Verif Require Import CPrelude LogXModel.
Import ListNotations.
Open Scope R_scope.

(** enum PRIOR_TYPE, cdnest/dnestvars.h:26; the caller's array holds integers. *)
Definition UNIFORM : Z := 0.
Definition GAUSSIAN : Z := 1.
Definition LOG : Z := 2.

Section Defaults.
(** dnest_num_params, dnest_param_range, dnest_prior_type, dnest_prior_info as copied by
    setup, cdnest/dnest.c:966-983, from arrays of the caller that are not NULL. *)
Variable num : nat.
Variable param_range : list R.
Variable prior_type : list Z.
Variable prior_info : list R.

(** The value drawn for parameter i, cdnest/dnest.c:2072-2085; [g] and [u] are the values
    that dnest_randn() and dnest_rand() return. *)
Definition draw (i : nat) (g u : R) : outcome R :=
  ty <- get prior_type i ;;
  if (ty =? GAUSSIAN)%Z then
    s <- get prior_info (i * 2 + 1) ;; m <- get prior_info (i * 2 + 0) ;;
    a <- get param_range (i * 2 + 0) ;; b <- get param_range (i * 2 + 1) ;;
    dnest_wrap (g * s + m) a b
  else if (ty =? LOG)%Z then
    a <- get param_range (i * 2 + 0) ;; b <- get param_range (i * 2 + 1) ;;
    Ok (exp (ln a + u * (ln b - ln a)))
  else
    a <- get param_range (i * 2 + 0) ;; b <- get param_range (i * 2 + 1) ;;
    Ok (a + u * (b - a)).
(** dnest_from_prior, cdnest/dnest.c:2065-2087: the loop from parameter i on, n to go. *)
Fixpoint draws (G U : nat -> R) (n i : nat) (pm : list R) : outcome (list R) :=
  match n with
  | O => Ok pm
  | S n => v <- draw i (G i) (U i) ;; pm <- put pm i v ;; draws G U n (S i) pm
  end.
Definition dnest_from_prior (G U : nat -> R) (pm : list R) : outcome (list R) := draws G U num 0 pm.

(** -0.5*pow((x - dnest_prior_info[which*2+0])/dnest_prior_info[which*2+1], 2.0),
    cdnest/dnest.c:2113 and 2116. *)
Definition gauss (which : nat) (x : R) : outcome R :=
  m <- get prior_info (which * 2 + 0) ;; s <- get prior_info (which * 2 + 1) ;;
  Ok (- (1 / 2) * ((x - m) / s) ^ 2).
(** The move of parameter [which] by [h] widths, and logH: cdnest/dnest.c:2099-2119, and the
    same text in 2145-2165. [h]: the value of dnest_randh(). *)
Definition move (which : nat) (h width : R) (pm : list R) : outcome (list R * R) :=
  ty <- get prior_type which ;;
  x <- get pm which ;;
  a <- get param_range (which * 2 + 0) ;; b <- get param_range (which * 2 + 1) ;;
  if (ty =? UNIFORM)%Z then
    v <- dnest_wrap (x + h * width) a b ;; pm <- put pm which v ;; Ok (pm, 0)
  else if (ty =? LOG)%Z then
    v <- dnest_wrap (x + h * width) a b ;; pm <- put pm which v ;; Ok (pm, 0 - (- ln x) + (- ln v))
  else
    q <- gauss which x ;;
    v <- dnest_wrap (x + h * width) a b ;; pm <- put pm which v ;;
    r <- gauss which v ;; Ok (pm, 0 - q + r).
(** width = dnest_param_range[which*2+1] - dnest_param_range[which*2+0] *)
Definition whole (which : nat) : outcome R :=
  b <- get param_range (which * 2 + 1) ;; a <- get param_range (which * 2 + 0) ;; Ok (b - a).
(** dnest_perturb, cdnest/dnest.c:2089-2120; [which] is the value of
    dnest_rand_int(dnest_num_params). *)
Definition dnest_perturb (which : nat) (h : R) (pm : list R) : outcome (list R * R) :=
  w <- whole which ;; move which h w pm.
(** dnest_perturb_limit, cdnest/dnest.c:2122-2165; [limits] is None when the pointer is NULL
    or the memory has been freed, [u] dnest_which_level_update, [size] size_levels. *)
Definition dnest_perturb_limit (limits : option (list R)) (u size : Z) (which : nat) (h : R) (pm : list R) : outcome (list R * R) :=
  let wl := (if size - 15 <? u - 5 then size - 15 else u - 5)%Z in
  w <- (if (0 <? wl)%Z then
          match limits with
          | None => UB
          | Some limits =>
            l1 <- get limits (Z.to_nat (wl - 1) * num * 2 + which * 2) ;;
            l2 <- get limits (Z.to_nat (wl - 1) * num * 2 + which * 2 + 1) ;; Ok (l2 - l1)
          end
        else whole which) ;;
  move which h w pm.
End Defaults.

(** ** The set of functions, cdnest/dnest.h:23-35: a pointer is NULL (None), a function of
    the caller, or one of the library (2065-2214). *)
Inductive fn := Caller (name : nat)
| D_from_prior | D_print_particle | D_read_particle | D_perturb | D_perturb_limit
| D_restart_action | D_accept_action | D_kill_action.
Record fset := Fset { from_prior : option fn; log_likelihoods_cal : option fn; log_likelihoods_cal_initial : option fn;
  log_likelihoods_cal_restart : option fn; perturb : option fn; print_particle : option fn; read_particle : option fn;
  restart_action : option fn; accept_action : option fn; kill_action : option fn }.
(** dnest_malloc_fptrset, cdnest/dnest.c:1729-1745 *)
Definition dnest_malloc_fptrset : fset := Fset None None None None None None None None None None.
(** if(p == NULL) p = d *)
Definition default (d : fn) (p : option fn) : option fn := match p with Some f => Some f | None => Some d end.
(** dnest_check_fptrset, cdnest/dnest.c:1653-1727; [flag] is dnest_flag_limits at the call. *)
Definition dnest_check_fptrset (flag : bool) (f : fset) : outcome fset :=
  match log_likelihoods_cal f with
  | None => Exit
  | Some l => Ok (Fset (default D_from_prior (from_prior f)) (Some l) (default l (log_likelihoods_cal_initial f))
      (default l (log_likelihoods_cal_restart f)) (default (if flag then D_perturb_limit else D_perturb) (perturb f))
      (default D_print_particle (print_particle f)) (default D_read_particle (read_particle f))
      (default D_restart_action (restart_action f)) (default D_accept_action (accept_action f))
      (default D_kill_action (kill_action f)))
  end.

(** ** Successive calls of dnest() in one process, cdnest/dnest.c:47-186.  dnest_flag_limits
    is a global variable that starts as 0 (dnestvars.c:67); a call first fills the set of
    functions (66), then sets the flag to 0 and reads the option -l (75, 121, 155), allocates
    [limits] if the flag is set (1035-1037, 1076-1078) and frees it at the end under the same
    condition (1174-1175). *)
Inductive mem := Null | Live | Freed.
Record glob := Glob { flag_limits : bool; limits_ptr : mem }.
Definition start : glob := Glob false Null.
(** The state while the sampler of this call runs, with the functions it uses. *)
Definition enter (f : fset) (opt_l : bool) (g : glob) : outcome (fset * glob) :=
  f <- dnest_check_fptrset (flag_limits g) f ;;
  Ok (f, Glob opt_l (if opt_l then Live else limits_ptr g)).
(** finalise, cdnest/dnest.c:1164-1211, as far as the limits go *)
Definition leave (g : glob) : glob := Glob (flag_limits g) (if flag_limits g then Freed else limits_ptr g).
(** The calls [l], each with the caller's functions and whether -l is given, one after the
    other, and the state in which the sampler of the last one runs. *)
Fixpoint calls (l : list (fset * bool)) (f : fset) (opt_l : bool) (g : glob) : outcome (fset * glob) :=
  match l with
  | [] => enter f opt_l g
  | (f1, l1) :: r => s <- enter f1 l1 g ;; calls r f opt_l (leave (snd s))
  end.
(** fptrset->perturb(model) in that state with a function of the library, cdnest/dnest.c:743; [v] is what [limits] holds. *)
Definition run_perturb (s : fset * glob) (num : nat) (param_range : list R) (prior_type : list Z) (prior_info v : list R)
  (u size : Z) (which : nat) (h : R) (pm : list R) : outcome (list R * R) :=
  match perturb (fst s) with
  | Some D_perturb => dnest_perturb param_range prior_type prior_info which h pm
  | Some D_perturb_limit => dnest_perturb_limit num param_range prior_type prior_info
      (match limits_ptr (snd s) with Live => Some v | _ => None end) u size which h pm
  | _ => Stuck
  end.

(** ** dnest_check_version, cdnest/dnest.c:1629-1650, with the macros of dnest.h:15-17 as
    arguments.  The three variables hold what sscanf could read; the others stay unset. *)
Definition cmp (x : option Z) (v : Z) (below : Z -> outcome Z) : outcome Z :=
  match x with None => UB | Some x => if (v <? x)%Z then Ok 1%Z else below x end.
Definition dnest_check_version_of (MAJOR MINOR PATCH : Z) (major minor patch : option Z) : outcome Z :=
  cmp major MAJOR (fun x => if (x <? MAJOR)%Z then Ok (-1)%Z else
  cmp minor MINOR (fun x => if (x <? MINOR)%Z then Ok (-1)%Z else
  cmp patch PATCH (fun x => if (PATCH <? x)%Z then Ok (-1)%Z else Ok 0%Z))).
Definition dnest_check_version := dnest_check_version_of 0 1 0.
