(** Names of the columns that get_posterior_sample of postprocess.py gives to
    the posterior sample.  Python exceptions are [Exit]. *)
From Coq Require Import ZArith String List Bool Ascii.
From Verif Require Import CPrelude TagModel TagSpec ScanModel TextModel TabModel.
Import ListNotations.
Open Scope nat_scope.

(** np.loadtxt with dtype=str and usecols=1, postprocess.py:305 and 311: the
    second word of every line that is not empty; a line without one raises.
    Comments are not modelled: the table has none. *)
Definition second_words (t : list ascii) : outcome (list (list ascii)) :=
  mapM (fun ws => match nth_error ws 1 with Some w => Ok w | None => Exit end)
       (filter (fun ws => match ws with [] => false | _ => true end) (map words (lines t))).

(** np.where(names == x)[0], counting from k. *)
Fixpoint where_from (k : nat) (x : list ascii) (names : list (list ascii)) : list nat :=
  match names with
  | [] => []
  | n :: r => if list_eq_dec ascii_dec n x then k :: where_from (S k) x r else where_from (S k) x r
  end.

Definition at_name (names : list (list ascii)) (j : nat) : outcome (list ascii) :=
  match nth_error names j with Some n => Ok n | None => Exit end.
(** "..._%d" % i *)
Definition numbered (what : list ascii) (i : nat) : list ascii := what ++ print_d (Z.of_nat i).

(** The body of the loop over the lines, postprocess.py:324-330: the state is
    colnames and j1. *)
Definition line_names (names : list (list ascii)) (s : list (list ascii) * nat) (ij : nat * nat)
  : outcome (list (list ascii) * nat) :=
  let j1 := snd s in
  let '(i, j2) := ij in
  ns <- mapM (fun j => n <- at_name names j ;; Ok (numbered (n ++ chars "_") i))
             (seq (j1 + 1) (j2 + 1 - (j1 + 1))) ;;
  Ok (fst s ++ numbered (chars "line_err_") i :: ns, j2 + 1).

(** postprocess.py:315-330; [g] is num_comp. *)
Definition colnames (g : nat) (names : list (list ascii)) : outcome (list (list ascii)) :=
  let nd := List.length (where_from 0 (chars "taud") names) in
  let c0 := flat_map (fun i => [numbered (chars "con_err_") i; numbered (chars "sigmad_") i; numbered (chars "taud_") i]) (seq 0 nd) in
  let idx := where_from 0 (print_d (Z.of_nat g - 1) ++ chars "-th_component_sigma") names in
  s <- foldM (line_names names) (combine (seq 0 (List.length idx)) idx) (c0, nd * 3) ;;
  Ok (fst s).

(** get_posterior_sample, postprocess.py:297-334.  [rows] are the rows of the
    posterior sample, at least one.  np.loadtxt gives a one-dimensional array
    for a single row; with fdir it is made a row again (np.atleast_2d, line
    303), without fdir it stays as it is (np.atleast_1d, line 309) and is then
    one column for pandas.  pandas refuses a number of names other than that of
    the columns. *)
Definition frame {A : Type} (fdir : bool) (g : nat) (t : list ascii) (rows : list (list A))
  : outcome (list (list ascii) * list (list A)) :=
  names <- second_words t ;;
  c <- colnames g names ;;
  let tab := if fdir then rows else match rows with [r] => map (fun x => [x]) r | _ => rows end in
  if forallb (fun r => Nat.eqb (List.length r) (List.length c)) tab then Ok (c, tab) else Exit.
