(** Text of doubles: the conversions "%d", "%f" and "%e" of printf and "%lf" of
    scanf, on binary64 numbers.

    These are library functions; what is written here is what the C library
    used on Linux documents: the decimal printed is the exact value rounded to
    nearest with ties to even, the number read is the decimal rounded to nearest
    with ties to even.  Infinities and NaN are not treated: [print_f] gives
    nothing for them, and the words "inf", "nan" and hexadecimal numbers are
    not read by [scan_lf]. *)
From Coq Require Import ZArith List Bool Ascii.
From Flocq Require Import Core BinarySingleNaN.
From Verif Require Import CPrelude TagModel ScanModel.
Import ListNotations.
Open Scope Z_scope.

Lemma Hprec : FLX.Prec_gt_0 53. Proof. reflexivity. Qed.
Lemma Hmax : Prec_lt_emax 53 1024. Proof. reflexivity. Qed.
Notation b64 := (binary_float 53 1024).

(** ** Decimal digits *)
Definition chr (d : Z) : ascii := ascii_of_N (Z.to_N (48 + d)).
Fixpoint dec_aux (fuel : nat) (n : Z) (acc : list ascii) : list ascii :=
  match fuel with
  | O => acc
  | S f => let acc := chr (n mod 10) :: acc in if n <? 10 then acc else dec_aux f (n / 10) acc
  end.
(** "%d" of n >= 0 *)
Definition print_d (n : Z) : list ascii := dec_aux (S (Z.to_nat (Z.log2 n))) n [].
(** the last k digits *)
Fixpoint pad (k : nat) (n : Z) (acc : list ascii) : list ascii :=
  match k with O => acc | S k => pad k (n / 10) (chr (n mod 10) :: acc) end.

(** a / d rounded to the nearest integer, ties to even *)
Definition nearest (a d : Z) : Z :=
  let q := a / d in
  match 2 * (a mod d) ?= d with Lt => q | Gt => q + 1 | Eq => if Z.even q then q else q + 1 end.

(** ** "%f" *)
Definition minus (s : bool) : list ascii := if s then ["-"%char] else [].
(** numerator and denominator of m 2^e *)
Definition numer (m : positive) (e : Z) : Z := if 0 <=? e then Zpos m * 2 ^ e else Zpos m.
Definition denom (e : Z) : Z := if 0 <=? e then 1 else 2 ^ (- e).
Definition fixed6 (s : bool) (n : Z) : list ascii := minus s ++ print_d (n / 10 ^ 6) ++ DOT :: pad 6 n [].
Definition print_f (x : b64) : list ascii :=
  match x with
  | B754_zero s => fixed6 s 0
  | B754_finite s m e _ => fixed6 s (nearest (numer m e * 10 ^ 6) (denom e))
  | _ => []
  end.

(** ** "%lf" *)
(** the double nearest to (-1)^s n 10^p, n >= 0 *)
Definition dec_num (n p : Z) : positive := Z.to_pos (if 0 <=? p then n * 10 ^ p else n).
Definition dec_den (p : Z) : positive := if 0 <=? p then 1%positive else Z.to_pos (10 ^ (- p)).
Definition to_b64 (s : bool) (n p : Z) : b64 :=
  if n =? 0 then B754_zero s
  else SF2B _ (proj1 (Bdiv_correct_aux 53 1024 Hprec Hmax mode_NE s (dec_num n p) 0 false (dec_den p) 0)).
(** An exponent: value and rest.  "e" not followed by digits is an error. *)
Definition exponent (s : list ascii) : option (Z * list ascii) :=
  match s with
  | c :: r =>
    if (if ascii_dec c "e" then true else if ascii_dec c "E" then true else false) then
      let '(sg, r) := match r with
        | c :: r' => if ascii_dec c "-" then (-1, r') else if ascii_dec c "+" then (1, r') else (1, r)
        | [] => (1, [])
        end in
      let '(v, k, r) := digits 0 0 r in
      match k with O => None | _ => Some (sg * v, r) end
    else Some (0, s)
  | [] => Some (0, [])
  end.
Definition scan_lf (s : list ascii) : option (b64 * list ascii) :=
  let s := skip_space s in
  let '(sg, s) := match s with
    | c :: r => if ascii_dec c "-" then (true, r) else if ascii_dec c "+" then (false, r) else (false, s)
    | [] => (false, [])
    end in
  let '(v, k, r) := digits 0 0 s in
  let '(v, k', r) := match r with
    | c :: r' => if ascii_dec c DOT then digits v 0 r' else (v, O, r)
    | [] => (v, O, [])
    end in
  match (k + k')%nat with
  | O => None
  | _ => match exponent r with
         | Some (e, r) => Some (to_b64 sg v (e - Z.of_nat k'), r)
         | None => None
         end
  end.

(** ** "%e" and "%g" *)
(** number of decimal digits of n >= 1 *)
Definition ndigits (n : Z) : Z := Z.of_nat (List.length (print_d n)).
(** the exponent k with 10^k <= a/d < 10^(k+1) *)
Definition order (a d : Z) : Z :=
  if d <=? a then ndigits (a / d) - 1
  else let j := ndigits (d / a) in if a * 10 ^ (j - 1) =? d then 1 - j else - j.
(** a/d in units of 10^(k-p) *)
Definition units (p a d k : Z) : Z := if p <=? k then nearest a (d * 10 ^ (k - p)) else nearest (a * 10 ^ (p - k)) d.
(** p + 1 significant digits and the exponent of the first *)
Definition mant_exp (p a d : Z) : Z * Z :=
  let k := order a d in
  let n := units p a d k in
  if n =? 10 ^ (p + 1) then (10 ^ p, k + 1) else (n, k).
Definition two_digits (n : Z) : list ascii := if n <? 10 then pad 2 n [] else print_d n.
Definition tail_exp (k : Z) : list ascii := "e"%char :: (if k <? 0 then "-"%char else "+"%char) :: two_digits (Z.abs k).
Definition sci6 (s : bool) (n k : Z) : list ascii := minus s ++ chr (n / 10 ^ 6) :: DOT :: pad 6 n [] ++ tail_exp k.
Definition print_e (x : b64) : list ascii :=
  match x with
  | B754_zero s => sci6 s 0 0
  | B754_finite s m e _ => let '(n, k) := mant_exp 6 (numer m e) (denom e) in sci6 s n k
  | _ => []
  end.
(** "%.12g": zeros at the end of the fraction are left out, and the point if
    nothing follows it. *)
Fixpoint strip0 (w : list ascii) : list ascii :=
  match w with
  | [] => []
  | c :: r => match strip0 r with [] => if ascii_dec c "0" then [] else [c] | r' => c :: r' end
  end.
Definition fraction (w : list ascii) : list ascii := match strip0 w with [] => [] | f => DOT :: f end.
Definition gen12 (s : bool) (n k : Z) : list ascii :=
  if (-4 <=? k) && (k <? 12) then
    minus s ++ print_d (n / 10 ^ (11 - k)) ++ fraction (pad (Z.to_nat (11 - k)) n [])
  else minus s ++ chr (n / 10 ^ 11) :: fraction (pad 11 n []) ++ tail_exp k.
Definition print_g (x : b64) : list ascii :=
  match x with
  | B754_zero s => gen12 s 0 0
  | B754_finite s m e _ => let '(n, k) := mant_exp 11 (numer m e) (denom e) in gen12 s n k
  | _ => []
  end.
(** Minimum field widths: blanks in front, or behind for a width given with a
    minus. *)
Definition padl (w : nat) (t : list ascii) : list ascii := repeat BL (w - List.length t) ++ t.
Definition padr (w : nat) (t : list ascii) : list ascii := t ++ repeat BL (w - List.length t).
