(** The progress bar of the sampler: cdnest/progress-bar.c and its uses in
    cdnest/dnest.c:1154-1157, 219-220 and 617-618.  A float operation is rounded by the
    parameter [rnd]; text is a list of characters, a buffer of n characters holds at most
    n - 1 of them. *)
From Coq Require Import Reals ZArith List Bool Ascii String.
From Flocq Require Import Core.
From Verif Require Import CPrelude OptModel.
Import ListNotations.
Open Scope Z_scope.

Definition str_ (s : string) : list ascii := list_ascii_of_string s.
Definition INT_MAX : Z := 2147483647.
(** the value of an int expression; too large: undefined *)
Definition int (z : Z) : outcome Z := if (- INT_MAX - 1 <=? z) && (z <=? INT_MAX) then Ok z else UB.
(** strcat, or sprintf at the end, into a buffer of n characters that holds s *)
Definition cat (n : nat) (s t : list ascii) : outcome (list ascii) :=
  if (List.length s + List.length t <? n)%nat then Ok (s ++ t) else UB.

(** ProgressBar, cdnest/progress-bar.h:19-30 *)
Record bar := Bar { symbol : ascii; startSymbol : ascii; endSymbol : ascii; b_length : Z; progress : Z; total : Z;
  format : list ascii; completedText : option (list ascii); showPercent_ : bool; showCount_ : bool }.
(** pb_init, cdnest/progress-bar.c:26-36; [found]: showCount as malloc left it, it is not set *)
Definition pb_init (found : bool) (symbol : ascii) (length total : Z) : bar :=
  Bar symbol "["%char "]"%char length 0 total (str_ "{bar} {percent} {count}") None false found.
(** cdnest/progress-bar.c:38-41, 43-46, 61-64 *)
Definition pb_update (b : bar) (p : Z) : bar :=
  Bar (symbol b) (startSymbol b) (endSymbol b) (b_length b) p (total b) (format b) (completedText b) (showPercent_ b) (showCount_ b).
Definition showPercent (b : bar) (show : bool) : bar :=
  Bar (symbol b) (startSymbol b) (endSymbol b) (b_length b) (progress b) (total b) (format b) (completedText b) show (showCount_ b).
Definition showCount (b : bar) (show : bool) : bar :=
  Bar (symbol b) (startSymbol b) (endSymbol b) (b_length b) (progress b) (total b) (format b) (completedText b) (showPercent_ b) show.

(** the loop of cdnest/progress-bar.c:118-124, n turns from i on *)
Fixpoint cells (symbol : ascii) (scaled : Z) (n : nat) (i : Z) (s : list ascii) : outcome (list ascii) :=
  match n with
  | O => Ok s
  | S n => s <- cat 256 s [if i <? scaled then symbol else " "%char] ;; cells symbol scaled n (i + 1) s
  end.
(** strncmp(ptr, w, strlen(w)) == 0 *)
Fixpoint prefix_of (w s : list ascii) : bool :=
  match w, s with
  | [], _ => true
  | c :: w, d :: s => if Ascii.eqb c d then prefix_of w s else false
  | _, [] => false
  end.
(** the loop over the format, cdnest/progress-bar.c:139-163; [n] turns are enough when n is
    the length of the text *)
Fixpoint expand (bar percent count : list ascii) (n : nat) (ptr result : list ascii) : outcome (list ascii) :=
  match n, ptr with
  | _, [] => Ok result
  | O, _ => Stuck
  | S n, c :: rest =>
      if Ascii.eqb c "{" then
        if prefix_of (str_ "{bar}") ptr then r <- cat 512 result bar ;; expand bar percent count n (skipn 5 ptr) r
        else if prefix_of (str_ "{percent}") ptr then r <- cat 512 result percent ;; expand bar percent count n (skipn 9 ptr) r
        else if prefix_of (str_ "{count}") ptr then r <- cat 512 result count ;; expand bar percent count n (skipn 7 ptr) r
        else r <- cat 512 result [c] ;; expand bar percent count n rest r
      else r <- cat 512 result [c] ;; expand bar percent count n rest r
  end.
(** (int)((float)pb->progress * pb->length / pb->total), cdnest/progress-bar.c:116; the
    int operands are converted to float.  total = 0: infinite or not a number, which has no
    value as an int *)
Definition scaled_progress (rnd : R -> R) (b : bar) : outcome Z :=
  if total b =? 0 then UB
  else int (Ztrunc (rnd (rnd (rnd (IZR (progress b)) * rnd (IZR (b_length b))) / rnd (IZR (total b)))))%R.
(** pb_print, cdnest/progress-bar.c:107-177: the characters printed *)
Definition pb_print (rnd : R -> R) (b : bar) : outcome (list ascii) :=
  bar <- cat 256 [] [startSymbol b] ;;
  scaled <- scaled_progress rnd b ;;
  bar <- cells (symbol b) scaled (Z.to_nat (b_length b)) 0 bar ;;
  bar <- cat 256 bar [endSymbol b] ;;
  p100 <- int (progress b * 100) ;;
  percent <- (if total b =? 0 then UB else int (Z.quot p100 (total b))) ;;
  percent_str <- (if showPercent_ b then cat 32 [] (print_int percent ++ ["%"%char]) else Ok []) ;;
  count_str <- (if showCount_ b then cat 32 [] (print_int (progress b) ++ ["/"%char] ++ print_int (total b)) else Ok []) ;;
  result <- expand bar percent_str count_str (List.length (format b)) (format b) [] ;;
  Ok (result ++ (if percent <? 100 then [ascii_of_nat 8; ascii_of_nat 13]
                 else match completedText b with
                      | Some t => [ascii_of_nat 27] ++ str_ "[2K" ++ [ascii_of_nat 13] ++ t ++ [ascii_of_nat 10]
                      | None => [ascii_of_nat 10]
                      end)).
(** The bar of the sampler, cdnest/dnest.c:1154-1157, and what it prints at the start of
    dnest_run with p = 0 (219-220) and when save number p is made (617-618). *)
Definition sampler_bar (found : bool) (max_num_saves : Z) : bar :=
  showCount (showPercent (pb_init found "#"%char 50 max_num_saves) true) true.
Definition bar_line (rnd : R -> R) (found : bool) (max_num_saves p : Z) : outcome (list ascii) :=
  pb_print rnd (pb_update (sampler_bar found max_num_saves) p).
