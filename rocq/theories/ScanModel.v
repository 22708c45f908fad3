(** Parsers built on sscanf and strchr: prior strings, data header, prior file,
    version string. *)
From Coq Require Import ZArith List Bool Lia Ascii.
From Verif Require Import CPrelude TagModel.
Import ListNotations.
Open Scope Z_scope.

Definition COLON : ascii := ":"%char.
Definition HASH : ascii := "#"%char.
Definition DOT : ascii := "."%char.
Definition BL : ascii := " "%char.
Definition TAB : ascii := "009"%char.
Definition CR : ascii := "013"%char.

(** strchr(s, c): the string from the first c on. *)
Fixpoint strchr (c : ascii) (s : list ascii) : option (list ascii) :=
  match s with
  | [] => None
  | x :: r => if ascii_dec x c then Some s else strchr c r
  end.

Definition digit (c : ascii) : option Z :=
  let n := Z.of_N (N_of_ascii c) in if (48 <=? n) && (n <=? 57) then Some (n - 48) else None.
(** The digits at the head of s: value and number of digits read so far, rest. *)
Fixpoint digits (acc : Z) (k : nat) (s : list ascii) : Z * nat * list ascii :=
  match s with
  | [] => (acc, k, [])
  | c :: r => match digit c with Some d => digits (10 * acc + d) (S k) r | None => (acc, k, s) end
  end.
(** %d of sscanf: white space, optional sign, digits.  [None]: no conversion.
    A number that does not fit an int is undefined (C11 7.21.6.2). *)
Definition scan_d (s : list ascii) : outcome (option (Z * list ascii)) :=
  let s := skip_space s in
  let '(sg, s) := match s with
    | c :: r => if ascii_dec c "-" then (-1, r) else if ascii_dec c "+" then (1, r) else (1, s)
    | [] => (1, [])
    end in
  let '(v, k, r) := digits 0 0 s in
  match k with
  | O => Ok None
  | _ => if (- 2 ^ 31 <=? sg * v) && (sg * v <? 2 ^ 31) then Ok (Some (sg * v, r)) else UB
  end.

(** ** Version check, cdnest/dnest.c:1629-1651.  A field that is not converted
    leaves its variable uninitialised; using it is undefined. *)
Definition lit (c : ascii) (s : list ascii) : option (list ascii) :=
  match s with x :: r => if ascii_dec x c then Some r else None | [] => None end.
Definition scan_version (s : list ascii) : outcome (Z * Z * Z) :=
  a <- scan_d s ;;
  match a with None => UB | Some (ma, r) =>
  match lit DOT r with None => UB | Some r =>
  b <- scan_d r ;;
  match b with None => UB | Some (mi, r) =>
  match lit DOT r with None => UB | Some r =>
  c <- scan_d r ;;
  match c with None => UB | Some (pa, _) => Ok (ma, mi, pa) end end end end end.
(** The library version is a parameter here; cdnest/dnest.h:15-17 define it as
    0.1.0. *)
Definition check_version_of (lib : Z * Z * Z) (s : list ascii) : outcome Z :=
  let '(MAJOR, MINOR, PATCH) := lib in
  v <- scan_version s ;;
  let '(major, minor, patch) := v in
  Ok (if MAJOR <? major then 1
      else if major <? MAJOR then -1
      else if MINOR <? minor then 1
      else if minor <? MINOR then -1
      else if PATCH <? patch then 1
      else if PATCH <? patch then -1
      else 0).
Definition check_version : list ascii -> outcome Z := check_version_of (0, 1, 0).

(** ** Prior strings.  V is the type of doubles, [lf] is %lf of sscanf: value
    and rest of the string, or no conversion. *)
Section Lf.
Context {V : Type}.
Variable lf : list ascii -> option (V * list ascii).

(** sscanf(pstr, "%lf", &a[j]); a cell [None] is uninitialised. *)
Definition scan_into (pstr : list ascii) (j : nat) (a : list (option V)) : outcome (list (option V)) :=
  match lf pstr with Some (v, _) => put a j (Some v) | None => Ok a end.

(** Lag prior, src/mc_line.c:2372-2397, and the first loop of the width prior,
    src/init.c:82-108: n repetitions of the loop body. *)
Fixpoint prior_loop (n : nat) (pstr : list ascii) (j : nat) (a : list (option V)) : outcome (list ascii * nat * list (option V)) :=
  match n with
  | O => Ok (pstr, j, a)
  | S m =>
    a <- scan_into pstr j a ;;
    match strchr COLON pstr with
    | Some (_ :: p) => prior_loop m p (S j) a
    | _ => Exit
    end
  end.
Definition lag_prior (G : nat) (s : list ascii) : outcome (list (option V)) :=
  match s with
  | [] => UB
  | _ :: pstr =>
    r <- prior_loop (2 * G - 1) pstr 0 (repeat None (2 * G)) ;;
    let '(pstr, j, a) := r in scan_into pstr j a
  end.

(** Width prior, src/init.c:82-123: [le0 v] is v <= 0, [logv] is log. *)
Variable le0 : V -> bool.
Variable logv : V -> V.
Fixpoint take_logs (a : list (option V)) : outcome (list V) :=
  match a with
  | [] => Ok []
  | None :: _ => UB
  | Some v :: r => if le0 v then Exit else r' <- take_logs r ;; Ok (logv v :: r')
  end.
Definition width_prior (G : nat) (s : list ascii) : outcome (list V) := a <- lag_prior G s ;; take_logs a.

(** Gap prior, src/read.c:1442-1485: [half] divides by 2.  One entry of the
    result is (gap_center, gap_width) of a set. *)
Variable half : V -> V.
Definition scan_pair (pstr : list ascii) : option (V * V) :=
  match lf pstr with
  | Some (c, r) => match lit COLON r with
                   | Some r => match lf r with Some (w, _) => Some (c, w) | None => None end
                   | None => None
                   end
  | None => None
  end.
Fixpoint gap_loop (n : nat) (pstr : list ascii) : outcome (list ascii * list (V * V)) :=
  match n with
  | O => Ok (pstr, [])
  | S m =>
    match scan_pair pstr with
    | None => Exit
    | Some (c, w) =>
      match strchr COLON pstr with
      | Some (_ :: p) => r <- gap_loop m p ;; let '(q, l) := r in Ok (q, (c, half w) :: l)
      | _ => Exit
      end
    end
  end.
Definition gap_prior (nset : nat) (s : list ascii) : outcome (list (V * V)) :=
  match s with
  | [] => UB
  | _ :: pstr =>
    r <- gap_loop (nset - 1) pstr ;;
    let '(p, l) := r in
    match scan_pair p with None => Exit | Some (c, w) => Ok (l ++ [(c, half w)]) end
  end.

(** Response-ratio prior, src/mc_pmap.c:155-206; G is num_gaussian_upper.
    sscanf and strchr on a null pointer are undefined. *)
Fixpoint count_colon (s : list ascii) : nat :=
  match s with [] => O | c :: r => if ascii_dec c COLON then S (count_colon r) else count_colon r end.
Definition log_at (j : nat) (a : list (option V)) : outcome (list (option V)) :=
  v <- get a j ;; match v with Some v => put a j (Some (logv v)) | None => UB end.
Fixpoint ratio_loop (n : nat) (pstr : option (list ascii)) (j : nat) (a : list (option V)) : outcome (option (list ascii) * nat * list (option V)) :=
  match n with
  | O => Ok (pstr, j, a)
  | S m =>
    match pstr with
    | None => UB
    | Some p =>
      a <- scan_into p j a ;;
      a <- log_at j a ;;
      ratio_loop m (match strchr COLON p with Some (_ :: q) => Some q | _ => None end) (S j) a
    end
  end.
(** the padding loop [for(i=jc; i<G-1; i++)] *)
Fixpoint ratio_pad (n i jc : nat) (a : list (option V)) : outcome (list (option V)) :=
  match n with
  | O => Ok a
  | S m =>
    x <- get a ((jc - 1) * 2 + 0) ;; a <- put a (i * 2 + 0) x ;;
    y <- get a ((jc - 1) * 2 + 1) ;; a <- put a (i * 2 + 1) y ;;
    ratio_pad m (S i) jc a
  end.
Definition ratio_prior (G : nat) (s : list ascii) : outcome (list (option V)) :=
  match s with
  | [] => UB
  | _ :: pstr =>
    let jc := count_colon pstr in
    if (jc <? 1)%nat || Nat.even jc then Exit
    else
      r <- ratio_loop (jc * 2 - 1) (Some pstr) 0 (repeat None ((G - 1) * 2)) ;;
      let '(p, j, a) := r in
      match p with
      | None => UB
      | Some p =>
        a <- scan_into p j a ;; a <- log_at j a ;;
        ratio_pad (G - 1 - jc) jc jc a
      end
  end.

(** ** Prior file, src/init.c:520-583.  The state is what load_par_names
    changes: ranges, fix flags and fixed values. *)
Record pstate := mkps { p_range : list (V * V); p_fix : list Z; p_val : list V }.
Fixpoint rtrim (s : list ascii) : list ascii :=
  match s with
  | [] => []
  | c :: r => match rtrim r with [] => if isspace c then [] else [c] | r' => c :: r' end
  end.
(** [begin], [end] and the copy: the string without white space at both ends *)
Definition trim (s : list ascii) : list ascii := rtrim (skip_space s).
(** sscanf(str, "%d %s %s %lf %lf %d %lf", ...) < 7 is [None]. *)
Definition scan_record (s : list ascii) : outcome (option (Z * V * V * Z * V)) :=
  a <- scan_d s ;;
  match a with None => Ok None | Some (i, s) =>
  match take_word (skip_space s) with ([], _) => Ok None | (_, s) =>
  match take_word (skip_space s) with ([], _) => Ok None | (_, s) =>
  match lf s with None => Ok None | Some (vmin, s) =>
  match lf s with None => Ok None | Some (vmax, s) =>
  b <- scan_d s ;;
  match b with None => Ok None | Some (fix_, s) =>
  match lf s with None => Ok None | Some (v, _) => Ok (Some (i, vmin, vmax, fix_, v))
  end end end end end end end.
Definition set_par (num_params : Z) (rc : Z * V * V * Z * V) (st : pstate) : outcome pstate :=
  let '(i, vmin, vmax, fix_, v) := rc in
  if num_params <=? i then Exit
  else if i <? 0 then UB
  else
    r <- put (p_range st) (Z.to_nat i) (vmin, vmax) ;;
    f <- put (p_fix st) (Z.to_nat i) fix_ ;;
    x <- put (p_val st) (Z.to_nat i) v ;;
    Ok (mkps r f x).
(** The loop: [str] and [buf] as left by the last round, [eof] what feof says.
    [continue] goes back to the test without reading a new line.  [Stuck] when
    the fuel is used up.  fgets at the end of the file leaves str unchanged. *)
Fixpoint load_loop (fuel : nat) (num_params : Z) (f : list ascii) (str buf : list ascii) (eof : bool) (st : pstate) : outcome pstate :=
  if eof then Ok st else
  match fuel with
  | O => Stuck
  | S n =>
    let buf := match sscanf_words 1 (cstr str) with w :: _ => w | [] => buf end in
    if match buf with c :: _ => if ascii_dec c HASH then true else false | [] => false end
    then load_loop n num_params f str buf eof st
    else
      let str := trim (cstr str) in
      match str with
      | [] => load_loop n num_params f str buf eof st
      | _ =>
        rc <- scan_record str ;;
        match rc with
        | None => Exit
        | Some rc =>
          st <- set_par num_params rc st ;;
          let '(s, r, e) := fgets 255 f in
          load_loop n num_params r (match s with [] => str | _ => s end) (match sscanf_words 3 str with [_; _; w] => w | _ => buf end) e st
        end
      end
  end.
(** [buf0] is the uninitialised buffer. *)
Definition load_par_names (fuel : nat) (num_params : Z) (f : list ascii) (str0 buf0 : list ascii) (st : pstate) : outcome pstate :=
  let '(s, r, e) := fgets 255 f in
  load_loop fuel num_params r (match s with [] => str0 | _ => s end) buf0 e st.
End Lf.

(** ** Data file, src/read.c:533-877 *)

(** "remove blanks": src/read.c:588 *)
Fixpoint skip_blank (s : list ascii) : list ascii :=
  match s with
  | [] => []
  | c :: r => if ascii_dec c BL then skip_blank r else if ascii_dec c TAB then skip_blank r else s
  end.
(** First pass over the entries of one line, src/read.c:583-602: [p] is the
    string after the ':'; np (None: uninitialised) and nlset. *)
Fixpoint entries1 (fuel : nat) (p : list ascii) (np : option Z) (nlset : nat) : outcome (option Z * nat) :=
  match fuel with
  | O => Stuck
  | S n =>
    let p := skip_blank p in
    let p := match p with c :: _ => if ascii_dec c nl then [] else if ascii_dec c CR then [] else p | [] => [] end in
    np <- match p with
          | [] => Ok (Some 0)
          | _ => v <- scan_d p ;; Ok (match v with Some (z, _) => Some z | None => np end)
          end ;;
    match np with
    | None => UB
    | Some z =>
      let nlset := if 0 <? z then S nlset else nlset in
      match strchr COLON p with
      | Some (_ :: q) => entries1 n q np nlset
      | _ => Ok (np, nlset)
      end
    end
  end.
(** One header line: numbers of continuum points and of lines. *)
Definition header1 (vmap : bool) (buf : list ascii) (np : option Z) : outcome (option Z * (option Z * nat)) :=
  match buf with
  | [] => UB
  | _ :: pstr =>
    c <- scan_d pstr ;;
    let con := match c with Some (z, _) => Some z | None => None end in
    match strchr COLON pstr with
    | Some (_ :: p) =>
      r <- entries1 (S (List.length p)) p np 0 ;;
      let '(np, nlset) := r in
      if vmap then match con with Some z => if 0 <? z then Exit else Ok (np, (con, nlset)) | None => UB end
      else Ok (np, (con, nlset))
    | _ => Ok (np, (con, 0%nat))
    end
  end.
(** Second pass, src/read.c:646-656: line[j].n for j < nlset, [None] if not set. *)
Fixpoint entries2 (n : nat) (p : list ascii) (np : option Z) : outcome (option Z * list (option Z)) :=
  match n with
  | O => Ok (np, [])
  | S m =>
    match strchr COLON p with
    | Some (_ :: q) =>
      v <- scan_d q ;;
      match (match v with Some (z, _) => Some z | None => np end) with
      | None => UB
      | Some z =>
        r <- entries2 m q (Some z) ;;
        let '(np', l) := r in
        Ok (np', (if 0 <? z then Some z else None) :: l)
      end
    | _ => UB
    end
  end.

(** A header: fgets of the first line and of nset lines, twice. *)
Fixpoint headers1 (vmap : bool) (n : nat) (f : list ascii) (buf : list ascii) (np : option Z) : outcome (option Z * list (option Z * nat)) :=
  match n with
  | O => Ok (np, [])
  | S m =>
    let '(s, f, _) := fgets 255 f in
    let buf := match s with [] => buf | _ => s end in
    r <- header1 vmap (cstr buf) np ;;
    let '(np, h) := r in
    r <- headers1 vmap m f buf np ;;
    let '(np, hs) := r in Ok (np, h :: hs)
  end.
Fixpoint headers2 (hs : list (option Z * nat)) (f : list ascii) (buf : list ascii) (np : option Z) :
  outcome (list ascii * list (option Z * list (option Z))) :=
  match hs with
  | [] => Ok (f, [])
  | (con, nlset) :: hs =>
    let '(s, f, _) := fgets 255 f in
    let buf := match s with [] => buf | _ => s end in
    match cstr buf with
    | [] => match nlset with O => r <- headers2 hs f buf np ;; let '(f, l) := r in Ok (f, (con, []) :: l) | _ => UB end
    | _ :: p =>
      r <- entries2 nlset p np ;;
      let '(np, ls) := r in
      r <- headers2 hs f buf np ;;
      let '(f, l) := r in Ok (f, (con, ls) :: l)
    end
  end.
(** Both passes: the numbers of points of each set, and the file position. *)
Definition read_header (vmap : bool) (f : list ascii) : outcome (list ascii * list (option Z * list (option Z))) :=
  let '(b, f1, _) := fgets 255 f in
  match cstr b with
  | [] => UB
  | _ :: p =>
    v <- scan_d p ;;
    match v with
    | None => UB
    | Some (nset, _) =>
      r <- headers1 vmap (Z.to_nat nset) f1 b None ;;
      let '(np, hs) := r in
      headers2 hs f1 b np
    end
  end.

Section Data.
Context {V : Type}.
Variable lf : list ascii -> option (V * list ascii).
Variable ltb : V -> V -> bool.
(** Rows of one light curve, src/read.c:826-843,853-867.  feof is true when
    the last "\n" directive ran into the end of the file. *)
Fixpoint read_rows (n : nat) (f : list ascii) (eof : bool) : outcome (list ascii * bool * list (V * V * V)) :=
  match n with
  | O => Ok (f, eof, [])
  | S m =>
    if eof then Exit else
    match lf f with None => Exit | Some (t, f) =>
    match lf f with None => Exit | Some (x, f) =>
    match lf f with None => Exit | Some (e, f) =>
    let f := skip_space f in
    r <- read_rows m f (match f with [] => true | _ => false end) ;;
    let '(f, eof, l) := r in Ok (f, eof, (t, x, e) :: l)
    end end end
  end.
(** check_time_sorted, src/read.c:1493-1508; with [ltb a b] for a - b < 0. *)
Fixpoint unsorted (l : list V) : bool :=
  match l with
  | a :: (b :: _) as r => ltb b a || unsorted r
  | _ => false
  end.
Definition read_curve (n : option Z) (f : list ascii) (eof : bool) : outcome (list ascii * bool * list (V * V * V)) :=
  match n with
  | None => UB
  | Some n =>
    r <- read_rows (Z.to_nat n) f eof ;;
    let '(f, eof, l) := r in
    let f := skip_space f in
    let eof := eof || match f with [] => true | _ => false end in
    if unsorted (map (fun r => fst (fst r)) l) then Exit else Ok (f, eof, l)
  end.
Fixpoint read_curves (ns : list (option Z)) (f : list ascii) (eof : bool) : outcome (list ascii * bool * list (list (V * V * V))) :=
  match ns with
  | [] => Ok (f, eof, [])
  | n :: ns =>
    r <- read_curve n f eof ;; let '(f, eof, l) := r in
    r <- read_curves ns f eof ;; let '(f, eof, ls) := r in Ok (f, eof, l :: ls)
  end.
Fixpoint read_sets (hs : list (option Z * list (option Z))) (f : list ascii) (eof : bool) : outcome (list (list (list (V * V * V)))) :=
  match hs with
  | [] => Ok []
  | (con, ls) :: hs =>
    r <- read_curves (con :: ls) f eof ;; let '(f, eof, l) := r in
    r <- read_sets hs f eof ;; Ok (l :: r)
  end.
(** The whole file: for each set the continuum and the lines.  A negative
    number of points behaves like 0 in the loops. *)
Definition read_data (vmap : bool) (f : list ascii) : outcome (list (list (list (V * V * V)))) :=
  r <- read_header vmap f ;;
  let '(f, hs) := r in read_sets hs f false.
End Data.
