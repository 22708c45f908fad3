(** The command line: src/mygetopt.c, its two callers (src/main.c:48-118 and
    cdnest/dnest.c:70-140), and the arguments which the five drivers hand to the
    sampler.  A C string is the list of its characters without the final 0. *)
From Coq Require Import ZArith List Ascii String Bool Arith DecimalString Reals.
From Verif Require Import CPrelude.
Import ListNotations.
Open Scope nat_scope.

Notation str := (list ascii).
Definition lit (s : string) : str := list_ascii_of_string s.

(** strchr, never asked for the character 0 here *)
Fixpoint strchr (s : str) (c : ascii) : option str :=
  match s with
  | [] => None
  | x :: r => if ascii_dec x c then Some s else strchr r c
  end.

(** strcpy into an array of n characters. *)
Definition strcpy (n : nat) (s : str) : outcome str := if List.length s <? n then Ok s else UB.

(** The static variables of src/mygetopt.c:32-87 and :251.  [optnext] is the rest of
    the element being scanned, None is NULL.  my_first_nonopt, my_last_nonopt and
    my_ordering are written and never read, my_optopt is only printed: left out. *)
Record gstate := G { argv : list str; optind : nat; optnext : option str; gstart : nat; gend : nat; optarg : option str }.

(** is_option, src/mygetopt.c:164-167 *)
Definition is_option (a : str) : bool :=
  match a with x :: _ :: _ => if ascii_dec x "-" then true else false | _ => false end.

(** src/mygetopt.c:298-302: the elements after [i] move one place down, n times, *)
Fixpoint shift (n i : nat) (l : list str) : outcome (list str) :=
  match n with
  | O => Ok l
  | S n => a <- get l (i + 1) ;; l <- put l i a ;; shift n (i + 1) l
  end.
(** and src/mygetopt.c:293-307: while (start < end--), n = end - start times; the
    counter of the inner loop ends at the larger of end and last_pos. *)
Fixpoint permute (n e last : nat) (l : list str) : outcome (list str) :=
  match n with
  | O => Ok l
  | S n => let e := e - 1 in
      arg <- get l e ;; l <- shift (last - e) e l ;; l <- put l (Nat.max e last) arg ;; permute n e (last - 1) l
  end.

(** src/mygetopt.c:344-353: the first option element from place i on. *)
Fixpoint find_option (n i : nat) (l : list str) : outcome (option nat) :=
  match n with
  | O => Ok None
  | S n => a <- get l i ;; if is_option a then Ok (Some i) else find_option n (i + 1) l
  end.

(** my_getopt_shortopts, src/mygetopt.c:399-477, with long_only = 0; the messages of
    my_getopt_error are off (my_opterr = 0 in both callers).  The result is the letter
    and the new state.  Only called with a rest that is not empty. *)
Definition shortopts (argc : nat) (optstring : str) (s : gstate) : outcome (ascii * gstate) :=
  match optnext s with
  | None | Some [] => UB
  | Some (opt :: rest) =>
    match strchr optstring opt with
    | None =>
        Ok ("?"%char, match rest with
          | [] => G (argv s) (optind s + 1) None (gstart s) (gend s) None
          | _ => G (argv s) (optind s) (Some rest) (gstart s) (gend s) None
          end)
    | Some os =>
      let colon k := match nth_error os k with Some x => if ascii_dec x ":" then true else false | None => false end in
      if colon 1 then
        match rest with
        | [] =>
          let ind := optind s + 1 in
          if colon 2 then Ok (opt, G (argv s) ind None (gstart s) (gend s) None)
          else if ind =? argc then
            let r := match optstring with x :: _ => if ascii_dec x ":" then ":"%char else "?"%char | [] => "?"%char end in
            Ok (r, G (argv s) ind None (gstart s) (gend s) None)
          else a <- get (argv s) ind ;; Ok (opt, G (argv s) (ind + 1) None (gstart s) (gend s) (Some a))
        | _ => Ok (opt, G (argv s) (optind s + 1) None (gstart s) (gend s) (Some rest))
        end
      else
        Ok (opt, match rest with
          | [] => G (argv s) (optind s + 1) None (gstart s) (gend s) None
          | _ => G (argv s) (optind s) (Some rest) (gstart s) (gend s) None
          end)
    end
  end.

(** my_getopt, src/mygetopt.c:170-173, that is my_getopt_internal, :244-396, with no long
    options.  First :260-311, the reset and the permutation. *)
Definition getopt_permute (s : gstate) : outcome gstate :=
  let s := if optind s =? 0 then G (argv s) 1 None 0 0 (optarg s) else s in
  match optnext s with
  | Some _ => Ok s
  | None =>
      if gstart s =? 0 then Ok s else
      let last_pos := optind s - 1 in
      let ind := Z.to_nat (Z.max 1 (Z.of_nat (optind s) - (Z.of_nat (gend s) - Z.of_nat (gstart s)))) in
      l <- permute (gend s - gstart s) (gend s) last_pos (argv s) ;;
      Ok (G l ind None 0 (gend s) (optarg s))
  end.
(** Then :313-395.  [posix]: the environment has POSIXLY_CORRECT (:131).  The option
    strings of both callers begin with neither + nor -, so handle_nonopt_argv = 0.  The
    result None is -1. *)
Definition getopt_short (argc : nat) (optstring : str) (s : gstate) : outcome (option ascii * gstate) :=
  r <- shortopts argc optstring s ;; Ok (Some (fst r), snd r).
(** the element at optind is an option: the end mark "--" or letters, :365-383 *)
Definition getopt_element (argc : nat) (optstring : str) (s : gstate) : outcome (option ascii * gstate) :=
  arg <- get (argv s) (optind s) ;;
  if list_eq_dec ascii_dec arg (lit "--") then Ok (None, G (argv s) (optind s + 1) None (gstart s) (gend s) (optarg s))
  else getopt_short argc optstring (G (argv s) (optind s) (Some (tl arg)) (gstart s) (gend s) (optarg s)).
Definition getopt_next (posix : bool) (argc : nat) (optstring : str) (s : gstate) : outcome (option ascii * gstate) :=
  if argc <=? optind s then Ok (None, G (argv s) (optind s) (optnext s) (gstart s) (gend s) None) else
  match optnext s with
  | Some _ => getopt_short argc optstring s
  | None =>
      arg <- get (argv s) (optind s) ;;
      if is_option arg then getopt_element argc optstring s
      else if posix then Ok (None, G (argv s) (optind s) None (gstart s) (gend s) None)
      else
        f <- find_option (argc - (optind s + 1)) (optind s + 1) (argv s) ;;
        match f with
        | None => Ok (None, G (argv s) (optind s) None (optind s) (gend s) None)
        | Some i => getopt_element argc optstring (G (argv s) i None (optind s) i (optarg s))
        end
  end.
Definition my_getopt (posix : bool) (argc : nat) (optstring : str) (s : gstate) : outcome (option ascii * gstate) :=
  s <- getopt_permute s ;; getopt_next posix argc optstring s.

(** The loop of both callers, while( (opt = my_getopt(...)) != -1): [handle] is the
    switch.  [Stuck]: more than [fuel] turns. *)
Section Loop.
  Context {A : Type}.
  Variable posix : bool.
  Variable argc : nat.
  Variable optstring : str.
  Variable handle : A -> ascii -> option str -> outcome A.
  Fixpoint opt_loop (fuel : nat) (a : A) (s : gstate) : outcome (A * gstate) :=
    match fuel with
    | O => Stuck
    | S fuel =>
        r <- my_getopt posix argc optstring s ;;
        match fst r with
        | None => Ok (a, snd r)
        | Some c => a <- handle a c (optarg (snd r)) ;; opt_loop fuel a (snd r)
        end
    end.
End Loop.

(** optind = 0 resets my_getopt; the other variables have whatever value the last use left. *)
Definition reset (l : list str) (s : gstate) : gstate := G l 0 (optnext s) (gstart s) (gend s) (optarg s).
(** enough turns: one for each character and one *)
Definition turns (l : list str) : nat := S (fold_right (fun a n => List.length a + n) 0 l).

(** ** src/main.c:39-118.  The flags; [prior_file] is None until written.  -v prints the
    version and runs on (:59-62). *)
Record flags := Flags { postprc : bool; endrun : bool; restart : bool; decomp : bool; examine : bool; load_prior : bool;
  para_name : bool; postsample : bool; prior_file : option str }.
Definition no_flags : flags := Flags false false false false false false false false None.
Definition MICA_MAX_STR_LENGTH : nat := 256.
Definition main_options : str := lit "pvrdel:ns".
(** the string functions need a pointer that is not NULL: UB otherwise *)
Definition deref (a : option str) : outcome str := match a with Some a => Ok a | None => UB end.
Definition main_switch (f : flags) (opt : ascii) (arg : option str) : outcome flags :=
  if ascii_dec opt "p" then Ok (Flags true (endrun f) (restart f) (decomp f) (examine f) (load_prior f) (para_name f) (postsample f) (prior_file f))
  else if ascii_dec opt "v" then Ok (Flags (postprc f) true (restart f) (decomp f) (examine f) (load_prior f) (para_name f) (postsample f) (prior_file f))
  else if ascii_dec opt "r" then Ok (Flags (postprc f) (endrun f) true (decomp f) (examine f) (load_prior f) (para_name f) (postsample f) (prior_file f))
  else if ascii_dec opt "d" then Ok (Flags true (endrun f) (restart f) true (examine f) (load_prior f) (para_name f) (postsample f) (prior_file f))
  else if ascii_dec opt "e" then Ok (Flags (postprc f) (endrun f) (restart f) (decomp f) true (load_prior f) (para_name f) (postsample f) (prior_file f))
  else if ascii_dec opt "l" then
    a <- deref arg ;; p <- strcpy MICA_MAX_STR_LENGTH a ;;
    Ok (Flags (postprc f) (endrun f) (restart f) (decomp f) (examine f) true (para_name f) (postsample f) (Some p))
  else if ascii_dec opt "n" then Ok (Flags (postprc f) (endrun f) (restart f) (decomp f) (examine f) (load_prior f) true (postsample f) (prior_file f))
  else if ascii_dec opt "s" then Ok (Flags (postprc f) (endrun f) (restart f) (decomp f) (examine f) (load_prior f) (para_name f) true (prior_file f))
  else if ascii_dec opt "?" then a <- deref arg ;; Exit   (* printf("... %s", my_optarg), exit(0), :93-95 *)
  else Ok f.
Record command := Command { cflags : flags; param_file : str; options_line : str; options_con : str }.
Definition main_args (posix : bool) (args : list str) (s : gstate) : outcome command :=
  let argc := List.length args in
  r <- opt_loop posix argc main_options main_switch (turns args) no_flags (reset args s) ;;
  let (f, s) := r in
  let file k := if optind s + k <? argc then a <- get (argv s) (optind s + k) ;; strcpy MICA_MAX_STR_LENGTH a else Ok [] in
  if optind s <? argc then
    p <- file 0 ;; l <- file 1 ;; c <- file 2 ;; Ok (Command f p l c)
  else Exit.

(** ** cdnest/dnest.c:72-140.  The options -t, -c and -m are not used by MICA2, the numbers
    they set are left out ([atof] gives their values to the two tests). *)
Record dargs := Dargs { d_restart : bool; d_postprc : bool; d_info : bool; d_limits : bool;
  d_save : str; d_file : option str; d_postfix : str; d_tag : str }.
Definition STR_MAX_LENGTH : nat := 156.
Definition dnest_options : str := lit "r:s:pt:clx:g:m:".
Section Dnest.
  Variable atof : str -> R.
  Definition dnest_switch (d : dargs) (opt : ascii) (arg : option str) : outcome dargs :=
    if ascii_dec opt "r" then
      a <- deref arg ;; a <- strcpy STR_MAX_LENGTH a ;;
      Ok (Dargs true (d_postprc d) (d_info d) (d_limits d) (d_save d) (Some a) (d_postfix d) (d_tag d))
    else if ascii_dec opt "s" then
      a <- deref arg ;; a <- strcpy STR_MAX_LENGTH a ;;
      Ok (Dargs (d_restart d) (d_postprc d) (d_info d) (d_limits d) a (d_file d) (d_postfix d) (d_tag d))
    else if ascii_dec opt "p" then Ok (Dargs (d_restart d) true (d_info d) (d_limits d) (d_save d) (d_file d) (d_postfix d) (d_tag d))
    else if ascii_dec opt "t" then a <- deref arg ;; if Rlt_dec (atof a) 1 then Exit else Ok d
    else if ascii_dec opt "c" then Ok (Dargs (d_restart d) (d_postprc d) true (d_limits d) (d_save d) (d_file d) (d_postfix d) (d_tag d))
    else if ascii_dec opt "l" then Ok (Dargs (d_restart d) (d_postprc d) (d_info d) true (d_save d) (d_file d) (d_postfix d) (d_tag d))
    else if ascii_dec opt "x" then
      a <- deref arg ;; a <- strcpy STR_MAX_LENGTH a ;;
      Ok (Dargs (d_restart d) (d_postprc d) (d_info d) (d_limits d) (d_save d) (d_file d) a (d_tag d))
    else if ascii_dec opt "g" then
      a <- deref arg ;; a <- strcpy STR_MAX_LENGTH a ;;
      Ok (Dargs (d_restart d) (d_postprc d) (d_info d) (d_limits d) (d_save d) (d_file d) (d_postfix d) a)
    else if ascii_dec opt "m" then a <- deref arg ;; if Rlt_dec (exp 1) (atof a) then Exit else Ok d
    else if ascii_dec opt "?" then a <- deref arg ;; Exit
    else Ok d.
  (** [old]: file_restart keeps what an earlier call wrote. *)
  Definition dnest_args (posix : bool) (argc : nat) (args : list str) (old : option str) (s : gstate) : outcome (dargs * gstate) :=
    opt_loop posix argc dnest_options dnest_switch (turns args)
      (Dargs false false false false (lit "restart_dnest.txt") old [] []) (reset args s).
End Dnest.

(** ** What the drivers hand over.  An array of [n] strings of MICA_MAX_STR_LENGTH
    characters; the contents after malloc are unknown, here [junk]. *)
Definition dec (n : nat) : str := lit (NilZero.string_of_uint (Nat.to_uint n)).
Definition postfix (k : nat) : str := lit "_" ++ dec k.
Definition write (l : list str) (i : nat) (a : str) : outcome (list str) := a <- strcpy MICA_MAX_STR_LENGTH a ;; put l i a.
(** a list of strings from place i on *)
Fixpoint writes (l : list str) (i : nat) (a : list str) : outcome (list str) :=
  match a with [] => Ok l | x :: r => l <- write l i x ;; writes l (i + 1) r end.

(** mc_con, src/mc_con.c:35-60 *)
Definition mc_con_args (dir : str) (flag_restart flag_postprc : bool) : list str :=
  [lit "dnest"; lit "-s"; dir ++ lit "/data/restart_dnest.txt"; lit "-l"]
  ++ (if flag_restart then [lit "-r"; dir ++ lit "/data/restart_dnest.txt"] else [])
  ++ (if flag_postprc then [lit "-p"] else []).
Definition mc_con_argv (junk : list str) (dir : str) (flag_restart flag_postprc : bool) : outcome (nat * list str) :=
  let a := mc_con_args dir flag_restart flag_postprc in
  l <- writes (firstn 9 junk) 0 a ;; Ok (List.length a, l).

(** mc_pmap, mc_vmap and mc_mmap: src/mc_pmap.c:33-78, src/mc_vmap.c:33-84,
    src/mc_mmap.c:32-82, the same statements; one run per number k of components. *)
Definition mc_old_args (dir : str) (flag_restart flag_postprc : bool) : list str :=
  [lit "dnest"; lit "-s"; dir ++ lit "/data/restart_dnest1d.txt"; lit "-l"]
  ++ (if flag_restart then [lit "-r"; dir ++ lit "/data/restart_dnest1d.txt"] else [])
  ++ (if flag_postprc then [lit "-p"] else []) ++ [lit "-g"; lit "1d"].
Definition mc_old_argv (junk : list str) (dir : str) (flag_restart flag_postprc : bool) : outcome (nat * list str) :=
  let a := mc_old_args dir flag_restart flag_postprc in
  l <- writes (firstn 11 junk) 0 a ;; Ok (List.length a, l).
Definition mc_old_run (argc : nat) (l : list str) (k : nat) : outcome (nat * list str) :=
  l <- writes l argc [lit "-x"; postfix k] ;; Ok (argc + 2, l).

(** mc_line, src/mc_line.c:33-65 and, for each number k of components, :86-107. *)
Definition mc_line_argv (junk : list str) (flag_postprc : bool) : outcome (nat * list str) :=
  l <- writes (firstn 11 junk) 0 [lit "dnest"; lit "-s"] ;;
  l <- writes l 3 ([lit "-l"] ++ (if flag_postprc then [lit "-p"] else []) ++ [lit "-g"; lit "1d"]) ;;
  Ok (3 + (if flag_postprc then 4 else 3), l).
Definition mc_line_run (dir : str) (flag_restart : bool) (argc : nat) (l : list str) (k : nat) : outcome (nat * list str) :=
  l <- writes l argc [lit "-x"; postfix k] ;;
  l <- write l 2 (dir ++ lit "/data/restart_dnest1d.txt" ++ postfix k) ;;
  if flag_restart then
    l <- writes l (argc + 2) [lit "-r"; dir ++ lit "/data/restart_dnest1d.txt" ++ postfix k] ;; Ok (argc + 4, l)
  else Ok (argc + 2, l).

(** The runs of one driver, one after the other; [run] fills the array and gives argc,
    the sampler reads it, and what it leaves of the array and of its file name goes to
    the next run. *)
Section Runs.
  Variable atof : str -> R.
  Variable run : list str -> nat -> outcome (nat * list str).
  Fixpoint mc_runs (posix : bool) (ks : list nat) (l : list str) (old : option str) (s : gstate) : outcome (list dargs) :=
    match ks with
    | [] => Ok []
    | k :: r =>
        al <- run l k ;;
        ds <- dnest_args atof posix (fst al) (snd al) old s ;;
        let (d, s) := ds in
        rest <- mc_runs posix r (argv s) (d_file d) s ;; Ok (d :: rest)
    end.
End Runs.

(** The name of a snapshot, cdnest/dnest.c:1801, in an array of 200 characters (:1798). *)
Definition snapshot_name (d : dargs) (count_saves : nat) : outcome str := strcpy 200 (d_save d ++ postfix count_saves).
(** and the file a restart reads, cdnest/dnest.c:1903 *)
Definition restart_name (d : dargs) : option str := if d_restart d then d_file d else None.
