(** Reading the data file in the null mode ("nmap"): every light curve, be it
    a continuum or a line, becomes a set of its own.

    The text parsers (fgets, strchr, %d) and the reading of the rows are those
    of [ScanModel]. *)
From Coq Require Import ZArith List Bool Lia Ascii.
From Verif Require Import CPrelude TagModel ScanModel.
Import ListNotations.
Open Scope Z_scope.

(** First pass over one header line, src/read.c:687-722.  It returns np and
    the number of light curves announced by the line.  A line without ':'
    takes the branch of src/read.c:697-701, which writes dataset[i].nlset.  At
    that point [dataset] is still the null pointer it was initialised to
    (src/allvars.c:29); it is allocated at src/read.c:727.  The write is
    undefined.  The loop over the entries, src/read.c:703-721, is that of
    src/read.c:586-606 with nset in place of dataset[i].nlset. *)
Definition nmap_line1 (buf : list ascii) (np : option Z) : outcome (option Z * nat) :=
  match buf with
  | [] => UB
  | _ :: pstr =>
    match strchr COLON pstr with
    | Some (_ :: p) =>
      r <- entries1 (S (List.length p)) p np 0 ;;
      let '(np, n) := r in Ok (np, S n)
    | _ => UB
    end
  end.
Fixpoint nmap_pass1 (n : nat) (f : list ascii) (buf : list ascii) (np : option Z) : outcome (option Z * nat) :=
  match n with
  | O => Ok (np, 0%nat)
  | S m =>
    let '(s, f, _) := fgets 255 f in
    let buf := match s with [] => buf | _ => s end in
    r <- nmap_line1 (cstr buf) np ;;
    let '(np, k) := r in
    r <- nmap_pass1 m f buf np ;;
    let '(np, k') := r in Ok (np, (k + k')%nat)
  end.

(** Second pass over the entries of one line, src/read.c:755-777: the numbers
    stored in dataset[iset].con.n, one for each entry above zero. *)
Fixpoint nmap_entries (fuel : nat) (p : list ascii) (np : option Z) : outcome (option Z * list (option Z)) :=
  match fuel with
  | O => Stuck
  | S n =>
    let p := skip_blank p in
    let p := match p with c :: _ => if ascii_dec c nl then [] else if ascii_dec c CR then [] else p | [] => [] end in
    np <- match p with
          | [] => Ok (Some 0)
          | _ => v <- scan_d p ;; Ok (match v with Some (z, _) => Some z | None => np end)
          end ;;
    match np with
    | None => UB
    | Some z =>
      let l := if 0 <? z then [Some z] else [] in
      match strchr COLON p with
      | Some (_ :: q) => r <- nmap_entries n q np ;; let '(np, l') := r in Ok (np, l ++ l')
      | _ => Ok (np, l)
      end
    end
  end.
(** One line of the second pass, src/read.c:738-777.  Without a conversion
    dataset[iset].con.n stays as malloc left it; printing it (line 746) is
    undefined. *)
Definition nmap_line2 (buf : list ascii) (np : option Z) : outcome (option Z * list (option Z)) :=
  match buf with
  | [] => UB
  | _ :: pstr =>
    c <- scan_d pstr ;;
    match c with
    | None => UB
    | Some (z, _) =>
      match strchr COLON pstr with
      | Some (_ :: p) =>
        r <- nmap_entries (S (List.length p)) p np ;;
        let '(np, l) := r in Ok (np, Some z :: l)
      | _ => Ok (np, [Some z])
      end
    end
  end.
Fixpoint nmap_pass2 (n : nat) (f : list ascii) (buf : list ascii) (np : option Z) : outcome (list ascii * list (option Z)) :=
  match n with
  | O => Ok (f, [])
  | S m =>
    let '(s, f, _) := fgets 255 f in
    let buf := match s with [] => buf | _ => s end in
    r <- nmap_line2 (cstr buf) np ;;
    let '(np, l) := r in
    r <- nmap_pass2 m f buf np ;;
    let '(f, l') := r in Ok (f, l ++ l')
  end.
(** Both passes, src/read.c:673-785.  The array allocated between them has one
    element for each light curve counted by the first; writing past it is
    undefined, elements never written stay unset. *)
Definition nmap_header (f : list ascii) : outcome (list ascii * list (option Z)) :=
  let '(b, f1, _) := fgets 255 f in
  match cstr b with
  | [] => UB
  | _ :: p =>
    v <- scan_d p ;;
    match v with
    | None => UB
    | Some (nset_temp, _) =>
      r <- nmap_pass1 (Z.to_nat nset_temp) f1 b None ;;
      let '(np, nset) := r in
      r <- nmap_pass2 (Z.to_nat nset_temp) f1 b np ;;
      let '(f, l) := r in
      if (List.length l <=? nset)%nat then Ok (f, l ++ repeat None (nset - List.length l)) else UB
    end
  end.
Section Data.
Context {V : Type}.
Variable lf : list ascii -> option (V * list ascii).
Variable ltb : V -> V -> bool.
(** The whole file, src/read.c:673-880: no set has lines (src/read.c:779-782). *)
Definition read_data_nmap (f : list ascii) : outcome (list (list (list (V * V * V)))) :=
  r <- nmap_header f ;;
  let '(f, hs) := r in read_sets lf ltb (map (fun n => (n, [])) hs) f false.
End Data.
