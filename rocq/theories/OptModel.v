(** The option files the program writes for the sampler, and the routine that
    looks up the number of particles in a file given by the user. *)
From Coq Require Import ZArith QArith List Bool Ascii String.
From Flocq Require Import Core BinarySingleNaN.
From Verif Require Import CPrelude TagModel ScanModel TextModel.
Import ListNotations.
Open Scope Z_scope.

(** ** printf "%d" of an int and "%.<k>f" of a double *)
Definition print_int (z : Z) : list ascii := minus (z <? 0) ++ print_d (Z.abs z).
Definition fixed_pt (k : nat) (s : bool) (n : Z) : list ascii :=
  minus s ++ print_d (n / 10 ^ Z.of_nat k) ++ DOT :: pad k n [].
(** Nothing is printed for infinities and NaN, as in [print_f]. *)
Definition print_pt (k : nat) (x : b64) : list ascii :=
  match x with
  | B754_zero s => fixed_pt k s 0
  | B754_finite s m e _ => fixed_pt k s (nearest (numer m e * 10 ^ Z.of_nat k) (denom e))
  | _ => []
  end.

(** ** atof: the value of the longest numeral at the start, zero without one.
    The words "inf", "nan" and hexadecimal numbers are not read. *)
Definition exact (x : b64) : num :=
  match x with
  | B754_zero _ => Num 0
  | B754_infinity s => NumInf s
  | B754_nan => NumNaN
  | B754_finite s m e _ => Num (Qmake (SpecFloat.cond_Zopp s (numer m e)) (Z.to_pos (denom e)))
  end.
Definition atof64 (w : word) : num :=
  match scan_lf w with Some (x, _) => exact x | None => Num 0 end.

(** ** The sampler settings of the parameter file, src/allvars.h: struct PARSET *)
Record sset := mksset
  { s_saves : Z; s_ptol : b64; s_particles : Z; s_nlif : b64; s_sif : b64; s_tsf : b64;
    s_levels : Z; s_lam : b64; s_beta : b64 }.

Definition line_of (s : string) : list ascii := w_of s ++ [nl].
Definition head_lines (what : string) : list ascii :=
  line_of "# File containing parameters for DNest." ++
  line_of "# Put comments at the top, or at the end of the line." ++
  line_of "# Do not change the order of lines." ++
  line_of "# Lines beginning with '#' are regarded as comments." ++
  line_of what ++ [nl] ++ [nl].
Definition tail_lines (np nl sf ts : string) : list ascii :=
  line_of "# Full options and their default values (if not specified) are:" ++
  line_of "# MaxNumberSaves           2000 #maximum number of saves" ++
  line_of "# PTol                     0.1   #likelihood tolerance in loge" ++
  line_of np ++ line_of nl ++ line_of sf ++ line_of ts ++
  line_of "# MaxNumberLevels          0  #maximum number of levels; unlimited for 0" ++
  line_of "# BacktrackingLength       10.0  #backforward tracking length (lambda)" ++
  w_of "# StrengthEqualPush        100.0 #strength to force equal push (beta)".

(** write_options_line, src/init.c:454-496: the text of the file.  Opening,
    flushing and closing are not modelled. *)
Definition write_options_line (p : sset) : list ascii :=
  head_lines "# DNest options for continuum-line time lag analysis" ++
  w_of "MaxNumberSaves            " ++ print_int (s_saves p) ++ [nl] ++
  w_of "PTol                      " ++ print_pt 2 (s_ptol p) ++ [nl] ++
  w_of "NumberParticles           " ++ print_int (s_particles p) ++ [nl] ++
  w_of "NewLevelIntervalFactor    " ++ print_pt 2 (s_nlif p) ++ [nl] ++
  w_of "SaveIntervalFactor        " ++ print_pt 2 (s_sif p) ++ [nl] ++
  w_of "ThreadStepsFactor         " ++ print_pt 2 (s_tsf p) ++ [nl] ++
  w_of "MaxNumberLevels           " ++ print_int (s_levels p) ++ [nl] ++
  w_of "BacktrackingLength        " ++ print_pt 2 (s_lam p) ++ [nl] ++
  w_of "StrengthEqualPush         " ++ print_pt 2 (s_beta p) ++ [nl] ++ [nl] ++ [nl] ++
  tail_lines "# NumberParticles          1  #number of particles" "# NewLevelIntervalFactor   1  #new level interval"
    "# SaveIntervalFactor       1  #particular saving interval" "# ThreadStepsFactor        1 #thread steps before communications between cores".

(** write_options_con, src/init.c:412-451 *)
Definition write_options_con : list ascii :=
  head_lines "# DNest options for continuum reconstruction" ++
  line_of "MaxNumberSaves            2000" ++
  line_of "PTol                      0.1" ++
  line_of "NumberParticles           2" ++
  line_of "NewLevelIntervalFactor    5" ++
  line_of "ThreadStepsFactor         20" ++ [nl] ++ [nl] ++
  tail_lines "# NumberParticles          2  #number of particles" "# NewLevelIntervalFactor   5  #new level interval"
    "# SaveIntervalFactor       5  #particular saving interval" "# ThreadStepsFactor        20 #thread steps before communications between cores".

(** ** get_num_particles, src/read.c:1337-1372 *)
(** atoi: white space, sign, digits; zero without digits, undefined out of the
    range of int. *)
Definition atoi (w : word) : outcome Z :=
  r <- scan_d w ;; Ok (match r with Some (z, _) => z | None => 0 end).
(** [buf]: the characters of the buffer, [None] while it is uninitialised.  At
    the end of the file fgets leaves it as it was.  The buffers buf1 and buf2
    are as long as buf. *)
Fixpoint particles_loop (fuel : nat) (f : list ascii) (buf : option (list ascii)) : outcome Z :=
  match fuel with
  | O => Stuck
  | S n =>
    let '(s, r, eof) := fgets 255 f in
    match (match s with [] => buf | _ => Some s end) with
    | None => UB
    | Some b =>
      let next := if eof : bool then Ok 1 else particles_loop n r (Some b) in
      if match b with c :: _ => if ascii_dec c "#" then true else false | [] => false end then next
      else match sscanf_words 2 (cstr b) with
           | [] => next
           | [_] => Exit
           | buf1 :: buf2 :: _ => if weqb buf1 (w_of "NumberParticles") then atoi buf2 else next
           end
    end
  end.
Definition get_num_particles (f : list ascii) : outcome Z := particles_loop (S (S (List.length f))) f None.
