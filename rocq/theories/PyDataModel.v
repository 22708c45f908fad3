(** The two Python functions that write a data file: create_data_file of the interface
    and format_mica of genmockdata.py.  A light curve is a list of rows of three
    numbers; [f] is the conversion given to numpy.savetxt ("%e" and "%f"), which writes
    the numbers of a row with a blank between them and ends it with a new line.
    Python exceptions are [Exit]. *)
From Coq Require Import ZArith List Bool Arith Ascii.
From Verif Require Import CPrelude TagModel ScanModel TextModel.
Import ListNotations.
Open Scope nat_scope.

Section Write.
Context {U : Type}.
Variable f : U -> list ascii.
Definition curve := list (U * U * U).
Definition row_text (r : U * U * U) : list ascii := let '(x, y, z) := r in f x ++ BL :: f y ++ BL :: f z ++ [nl].
Definition savetxt (c : curve) : list ascii := List.concat (map row_text c).
(** "%d" of the number of rows *)
Definition rows_d (c : curve) : list ascii := print_d (Z.of_nat (List.length c)).
Definition first_line (n : nat) : list ascii := HASH :: BL :: print_d (Z.of_nat n) ++ [nl].

(** create_data_file, python/pymica/pymica.pyx:108-152, with fmt="%e"; the sets in the
    order of the dictionary, None for a curve that is not there.  That data is a dict
    is taken for granted, and so is rank 0. *)
Definition count_of (c : option curve) : list ascii := match c with None => [ "0"%char ] | Some c => rows_d c end.
Definition set_line (s : list (option curve)) : list ascii :=
  match s with
  | [] => []
  | c :: cs => HASH :: BL :: count_of c ++ List.concat (map (fun c => COLON :: count_of c) cs) ++ [nl]
  end.
Definition curve_text (c : option curve) : list ascii :=
  match c with
  | Some c => if 0 <? List.length c then savetxt c ++ [nl] else []
  | None => []
  end.
Definition create_data_file (data : list (list (option curve))) : outcome (list ascii) :=
  if existsb (fun s => List.length s <? 2) data then Exit
  else Ok (first_line (List.length data) ++ List.concat (map set_line data) ++ List.concat (map (fun s => List.concat (map curve_text s)) data)).

(** format_mica, genmockdata.py:165-259, with fmt="%f".  data2, or an entry of it, is
    one curve or a list of curves. *)
Inductive lines := One (c : curve) | Many (cs : list curve).
Inductive input := Virtual (l : lines) | Single (c : curve) (l : lines) | Sets (cs : list curve) (ls : list lines).
Definition colon_counts (cs : list curve) : list ascii := List.concat (map (fun c => COLON :: rows_d c) cs).
Definition separated (cs : list curve) : list ascii := List.concat (map (fun c => nl :: savetxt c) cs).
(** the loops over the sets: data2[i] raises IndexError when there is none *)
Fixpoint sets_header (cs : list curve) (ls : list lines) : outcome (list ascii) :=
  match cs, ls with
  | [], _ => Ok []
  | _ :: _, [] => Exit
  | c :: cs, l :: ls =>
    r <- sets_header cs ls ;;
    Ok (HASH :: BL :: rows_d c ++ match l with One d => COLON :: rows_d d ++ [nl] | Many ds => colon_counts ds ++ [nl] end ++ r)
  end.
Fixpoint sets_body (first : bool) (cs : list curve) (ls : list lines) : outcome (list ascii) :=
  match cs, ls with
  | [], _ => Ok []
  | _ :: _, [] => Exit
  | c :: cs, l :: ls =>
    r <- sets_body false cs ls ;;
    Ok ((if first then [] else [nl]) ++ savetxt c ++ match l with One d => nl :: savetxt d | Many ds => separated ds end ++ r)
  end.
Definition format_mica (i : input) : outcome (list ascii) :=
  match i with
  | Virtual (One d) => Ok (first_line 1 ++ (HASH :: BL :: "0"%char :: COLON :: rows_d d ++ [nl]) ++ savetxt d)
  | Virtual (Many ds) =>
    Ok (first_line 1 ++ (HASH :: BL :: "0"%char :: colon_counts ds ++ [nl]) ++ List.concat (map (fun c => savetxt c ++ [nl]) ds))
  | Single c (One d) => Ok (first_line 1 ++ (HASH :: BL :: rows_d c ++ COLON :: rows_d d ++ [nl]) ++ savetxt c ++ nl :: savetxt d)
  | Single c (Many ds) => Ok (first_line 1 ++ (HASH :: BL :: rows_d c ++ colon_counts ds ++ [nl]) ++ savetxt c ++ separated ds)
  | Sets cs ls =>
    h <- sets_header cs ls ;; b <- sets_body true cs ls ;;
    Ok (first_line (List.length cs) ++ h ++ b)
  end.
End Write.
