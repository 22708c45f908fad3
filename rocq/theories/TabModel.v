(** The parameter tables data/para_names_line.txt: print_para_names_line
    (src/dnest_line.c:387-458, also called in src/dnest_mmap.c:174),
    print_para_names_pmap (src/dnest_pmap.c:208-281) and print_para_names_vmap
    (src/dnest_vmap.c:234-297).  Opening and closing of the file are left out;
    the text is what is written by the root process.  Reading is
    [ScanModel.load_par_names]. *)
From Coq Require Import ZArith String List Bool Ascii.
From Verif Require Import CPrelude TagModel ScanModel TextModel.
Import ListNotations.
Open Scope Z_scope.

(** The three functions.  [Tline neg] has parset.flag_negative_resp. *)
Inductive tmode := Tline (neg : Z) | Tpmap | Tvmap.
Definition chars (s : string) : list ascii := list_ascii_of_string s.
(** a[i] for an int i *)
Definition getz {A} (l : list A) (i : Z) : outcome A := if i <? 0 then UB else get l (Z.to_nat i).
(** fprintf(fp, "%2d %-25s <type> %10.6f %10.6f %4d %15.6e\n", ...), the type
    with the blanks of the format: src/dnest_line.c:411-412 *)
Definition row (st : @pstate b64) (i : Z) (name type : list ascii) : outcome (list ascii) :=
  r <- getz (p_range st) i ;;
  f <- getz (p_fix st) i ;;
  v <- getz (p_val st) i ;;
  Ok (padl 2 (print_d i) ++ BL :: padr 25 name ++ BL :: type ++ BL ::
      padl 10 (print_f (fst r)) ++ BL :: padl 10 (print_f (snd r)) ++ BL ::
      padl 4 (print_d f) ++ BL :: padl 15 (print_e v) ++ [nl]).
Definition LOGUNI := chars "LOGUNI".
Definition LOG := chars "LOG   ".
Definition UNI := chars "UNI   ".
(** i++ and fprintf; the state is i and what is written so far *)
Definition next (st : @pstate b64) (name type : list ascii) (s : Z * list ascii) : outcome (Z * list ascii) :=
  let i := fst s + 1 in
  l <- row st i name type ;;
  Ok (i, snd s ++ l).
(** body of the first loop, src/dnest_line.c:410-420, src/dnest_pmap.c:231-241,
    src/dnest_vmap.c:257-267 *)
Definition var_rows (st : @pstate b64) (s : Z * list ascii) : outcome (Z * list ascii) :=
  s <- next st (chars "sys_err_con") LOGUNI s ;;
  s <- next st (chars "sigmad") LOG s ;;
  next st (chars "taud") LOG s.
(** sprintf(fstr, "%d-th_component_%s", k, ...) *)
Definition comp_name (k : nat) (what : string) : list ascii := print_d (Z.of_nat k) ++ chars "-th_component_" ++ chars what.
(** body of the loop over k, src/dnest_line.c:431-452, src/dnest_pmap.c:252-275,
    src/dnest_vmap.c:278-291 *)
Definition comp_rows (m : tmode) (st : @pstate b64) (k : nat) (s : Z * list ascii) : outcome (Z * list ascii) :=
  s <- match m with
       | Tline neg => next st (comp_name k "amplitude") (if neg =? 0 then LOG else UNI) s
       | Tpmap => if Nat.eqb k 0 then next st (comp_name k "amplitude") LOG s else next st (comp_name k "resp_ratio") LOG s
       | Tvmap => next st (comp_name k "amplitude") LOG s
       end ;;
  s <- next st (comp_name k "centroid") UNI s ;;
  next st (comp_name k "sigma") LOG s.
(** body of the second loop, src/dnest_line.c:424-453 *)
Definition line_rows (m : tmode) (g : nat) (st : @pstate b64) (s : Z * list ascii) : outcome (Z * list ascii) :=
  s <- next st (chars "sys_err_line") LOGUNI s ;;
  foldM (fun s k => comp_rows m st k s) (seq 0 g) s.
(** for(j=0; j<n; j+=d): j runs through the multiples of d below n; the bodies do
    not use j. *)
Definition rounds (n d : nat) : list nat := seq 0 ((n + d - 1) / d).
(** The whole table; [nvar] is num_params_var, [nline] num_params_line, [g]
    num_gaussian. *)
Definition table (m : tmode) (g nvar nline : nat) (st : @pstate b64) : outcome (list ascii) :=
  s <- foldM (fun s _ => var_rows st s) (rounds nvar 3) (-1, []) ;;
  s <- foldM (fun s _ => line_rows m g st s) (rounds nline (1 + 3 * g)) s ;;
  Ok (snd s).
(** num_params_var, src/init.c:32-39: one common set of variability parameters or
    one per data set.  num_params_line, src/dnest_line.c:48-60 (the same in the
    other modes): the lines of the largest set when all sets share their
    parameters, or all lines.  [uniform_var], [uniform_tf] are
    parset.flag_uniform_var_params and parset.flag_uniform_tranfuns. *)
Definition count_var (uniform_var : Z) (nset : nat) : nat := if uniform_var =? 1 then 3 else 3 * nset.
Definition count_line (uniform_tf : Z) (g : nat) (nlset : list nat) : nat :=
  if uniform_tf =? 1 then (1 + 3 * g) * fold_left (fun m n => if Nat.ltb m n then n else m) nlset O
  else fold_left (fun a n => (a + (1 + 3 * g) * n)%nat) nlset O.
