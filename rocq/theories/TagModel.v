(** Files of "Tag value" lines: the reading loop shared by options_load
    (cdnest/dnest.c:1228-1365) and read_parset (src/read.c:36-335), and the
    rest of options_load. *)
From Coq Require Import ZArith QArith List Bool Lia Ascii String.
From Verif Require Import CPrelude.
Import ListNotations.
Open Scope Z_scope.

Definition word := list ascii.
Definition w_of (s : string) : word := list_ascii_of_string s.
Definition nl : ascii := "010"%char.
Definition NUL : ascii := "000"%char.
(** C locale [isspace]: space and 9..13. *)
Definition isspace (c : ascii) : bool :=
  let n := N_of_ascii c in ((n =? 32) || ((9 <=? n) && (n <=? 13)))%N.

(** fgets(str, n+1, fp): at most [n] characters, stops after a newline; the
    last component says whether end of file was hit, i.e. what feof() returns
    afterwards.  The stream is the list of the characters left. *)
Fixpoint fgets (n : nat) (f : list ascii) : list ascii * list ascii * bool :=
  match n with
  | O => ([], f, false)
  | S m =>
    match f with
    | [] => ([], [], true)
    | c :: r => if ascii_dec c nl then ([c], r, false)
                else let '(s, r', e) := fgets m r in (c :: s, r', e)
    end
  end.

(** The buffer is a C string: it ends at the first NUL. *)
Fixpoint cstr (s : list ascii) : list ascii :=
  match s with
  | [] => []
  | c :: r => if ascii_dec c NUL then [] else c :: cstr r
  end.

(** sscanf(str, "%s%s%s", ...): up to [n] words, each preceded by white space.
    A field of 200 characters always suffices since str has at most 199. *)
Fixpoint skip_space (s : list ascii) : list ascii :=
  match s with
  | [] => []
  | c :: r => if isspace c then skip_space r else s
  end.
Fixpoint take_word (s : list ascii) : word * list ascii :=
  match s with
  | [] => ([], [])
  | c :: r => if isspace c then ([], s) else let '(w, t) := take_word r in (c :: w, t)
  end.
Fixpoint sscanf_words (n : nat) (s : list ascii) : list word :=
  match n with
  | O => []
  | S m => let '(w, r) := take_word (skip_space s) in
           match w with [] => [] | _ => w :: sscanf_words m r end
  end.

(** A double as far as these routines are concerned: a rational, an infinity
    or NaN.  [atof] is left open: the theorems hold for every conversion. *)
Inductive num := NumNaN | NumInf (neg : bool) | Num (q : Q).
(** Conversion double -> unsigned int and double -> int: truncation, undefined
    out of range (C11 6.3.1.4). *)
Definition trunc (q : Q) : Z := Z.quot (Qnum q) (Zpos (Qden q)).
Definition to_uint (x : num) : outcome Z :=
  match x with
  | Num q => let z := trunc q in if (0 <=? z) && (z <? 2^32) then Ok z else UB
  | _ => UB
  end.
Definition to_int (x : num) : outcome Z :=
  match x with
  | Num q => let z := trunc q in if (- 2^31 <=? z) && (z <? 2^31) then Ok z else UB
  | _ => UB
  end.

Inductive ty := DOUBLE | STRING | INT | UINT.
Inductive val := VD (x : num) | VS (w : word) | VI (z : Z).

(** One element of pardict: tag, type, and the field its address points to.
    [UINT] is the id INT of options_load, which stores an unsigned int; INT is
    that of read_parset, which stores an int. *)
Record entry := mkentry { e_tag : word; e_ty : ty; e_addr : nat }.

Section Reader.
Variable atof : word -> num.

(** The switch: atof, strcpy into a 256-byte field (src/allvars.h:28), or
    conversion to integer. *)
Definition decode (t : ty) (w : word) : outcome val :=
  match t with
  | DOUBLE => Ok (VD (atof w))
  | STRING => if (List.length w <? 256)%nat then Ok (VS w) else UB
  | INT => z <- to_int (atof w) ;; Ok (VI z)
  | UINT => z <- to_uint (atof w) ;; Ok (VI z)
  end.

Variable comment : ascii -> bool.
Variable dict : list entry.

Definition weqb (a b : word) : bool := if list_eq_dec ascii_dec a b then true else false.

(** [for(i=0, j=-1; i<nt; i++) if(strcmp(...)==0 && isset==0) ...]. *)
Fixpoint find_tag (d : list entry) (isset : list bool) (t : word) : option (nat * entry) :=
  match d, isset with
  | e :: d', b :: s' =>
    if weqb t (e_tag e) && negb b then Some (O, e)
    else match find_tag d' s' t with Some (i, e') => Some (S i, e') | None => None end
  | _, _ => None
  end.

Record rstate := mkrs { isset : list bool; fields : list val }.

(** The body of the loop after fgets. *)
Definition do_line (st : rstate) (str : list ascii) : outcome rstate :=
  match sscanf_words 3 (cstr str) with
  | buf1 :: buf2 :: _ =>
    if match buf1 with c :: _ => comment c | [] => false end then Ok st
    else match find_tag dict (isset st) buf1 with
         | Some (i, e) =>
           s' <- put (isset st) i true ;;
           v <- decode (e_ty e) buf2 ;;
           m <- put (fields st) (e_addr e) v ;;
           Ok (mkrs s' m)
         | None => Exit
         end
  | _ => Ok st
  end.

(** [while(!feof(fp)) { sprintf(str,"empty"); fgets(str,200,fp); ... }].
    The fuel is never used up (theorem in TagProofs.v). *)
Fixpoint read_loop (fuel : nat) (f : list ascii) (st : rstate) : outcome rstate :=
  match fuel with
  | O => Stuck
  | S n =>
    let '(s, r, eof) := fgets 199 f in
    let str := match s with [] => w_of "empty" | _ => s end in
    st' <- do_line st str ;;
    if eof : bool then Ok st' else read_loop n r st'
  end.

Definition read_file (f : list ascii) (dflt : list val) : outcome rstate :=
  read_loop (S (S (List.length f))) f (mkrs (map (fun _ => false) dict) dflt).
End Reader.

(** ** options_load.  Fields in the order of the table, cdnest/dnest.c:1242-1287. *)
Definition opt_dict : list entry :=
  [ mkentry (w_of "NumberParticles") UINT 0;
    mkentry (w_of "NewLevelIntervalFactor") DOUBLE 1;
    mkentry (w_of "SaveIntervalFactor") DOUBLE 2;
    mkentry (w_of "ThreadStepsFactor") DOUBLE 3;
    mkentry (w_of "MaxNumberLevels") UINT 4;
    mkentry (w_of "BacktrackingLength") DOUBLE 5;
    mkentry (w_of "StrengthEqualPush") DOUBLE 6;
    mkentry (w_of "MaxNumberSaves") UINT 7;
    mkentry (w_of "PTol") DOUBLE 8 ]%nat.
(** Defaults, cdnest/dnest.c:1291-1300. *)
Definition opt_dflt : list val :=
  [ VI 1; VD (Num 2); VD (Num 2); VD (Num 10); VI 0; VD (Num 10); VD (Num 100);
    VI 10000; VD (Num (1#10)) ].
(** Comment characters, cdnest/dnest.c:1314. *)
Definition opt_comment (c : ascii) : bool :=
  (if ascii_dec c "%" then true else false) || (if ascii_dec c "#" then true else false).

Definition qmul (a : num) (q : Q) : num :=
  match a with
  | Num p => Num (q * p)
  | NumInf b => if Qeq_bool q 0 then NumNaN else NumInf (xorb b (negb (Qle_bool 0 q)))
  | NumNaN => NumNaN
  end.

Record options := mkopts
  { op_particles : Z; op_nlif : num; op_sif : num; op_tsf : num; op_maxlevels : Z;
    op_lam : num; op_beta : num; op_maxsaves : Z; op_ptol : num;
    op_steps : Z; op_nli : Z; op_si : Z }.

Definition as_num (v : val) : outcome num := match v with VD x => Ok x | _ => UB end.
Definition as_int (v : val) : outcome Z := match v with VI x => Ok x | _ => UB end.
Definition as_str (v : val) : outcome word := match v with VS x => Ok x | _ => UB end.

(** options_load with a file name given, cdnest/dnest.c:1230-1385 and
    1459-1467.  dnest_totaltask * thread_steps is an unsigned product.  File
    names (1389-1457) and the file DNEST_OPTIONS are not modelled; double
    products are exact. *)
Definition options_load (atof : word -> num) (f : list ascii) (num_params totaltask : Z) : outcome options :=
  st <- read_file atof opt_comment opt_dict f opt_dflt ;;
  v0 <- get (fields st) 0 ;; np <- as_int v0 ;;
  v1 <- get (fields st) 1 ;; nlif <- as_num v1 ;;
  v2 <- get (fields st) 2 ;; sif0 <- as_num v2 ;;
  v3 <- get (fields st) 3 ;; tsf <- as_num v3 ;;
  v4 <- get (fields st) 4 ;; maxl <- as_int v4 ;;
  v5 <- get (fields st) 5 ;; lam <- as_num v5 ;;
  v6 <- get (fields st) 6 ;; beta <- as_num v6 ;;
  v7 <- get (fields st) 7 ;; maxs <- as_int v7 ;;
  v8 <- get (fields st) 8 ;; ptol <- as_num v8 ;;
  b <- get (isset st) 2 ;;
  let sif := if b : bool then sif0 else nlif in
  ts <- to_uint (qmul (qmul tsf (inject_Z num_params)) (inject_Z np)) ;;
  let base := u32 (totaltask * ts) in
  nli <- to_uint (qmul nlif (inject_Z base)) ;;
  si <- to_uint (qmul sif (inject_Z base)) ;;
  if nli <? base then Exit else
  Ok (mkopts np nlif sif tsf maxl lam beta maxs ptol ts nli si).
