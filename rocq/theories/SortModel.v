(** [qsort] with the comparison callbacks of the code. *)
From Coq Require Import ZArith List Bool Lia Arith.
From Verif Require Import CPrelude.
Import ListNotations.
Open Scope Z_scope.

(** glibc's qsort is a merge sort ([msort_with_tmp]) that takes the element of
    the left run iff [cmp left right <= 0].  It splits [n] elements into
    [n/2] and [n - n/2]; the recursion below does the same with explicit fuel
    (the length is enough).  The callback is an arbitrary function to [Z]: no
    consistency is assumed. *)
Section Sort.
Context {A : Type} (cmp : A -> A -> Z).

Fixpoint merge (l1 : list A) : list A -> list A :=
  match l1 with
  | [] => fun l2 => l2
  | a :: r1 =>
    fix merge_aux (l2 : list A) : list A :=
      match l2 with
      | [] => a :: r1
      | b :: r2 => if cmp a b <=? 0 then a :: merge r1 (b :: r2) else b :: merge_aux r2
      end
  end.

Fixpoint msort_fuel (n : nat) (l : list A) : list A :=
  match n with
  | O => l
  | S n' =>
    match l with
    | [] => []
    | [a] => [a]
    | _ =>
      let h := Nat.div (length l) 2 in
      merge (msort_fuel n' (firstn h l)) (msort_fuel n' (skipn h l))
    end
  end.

Definition msort (l : list A) : list A := msort_fuel (length l) l.
End Sort.

(** LikelihoodType, cdnest/dnestvars.h:35-39.  The tiebreaker is a double in
    [0,1); only compared, so an integer code. *)
Record lik := mklik { lv : dbl; tb : Z }.

(** dnest_cmp, cdnest/dnest.c:1566-1578: returns false (0) or true (1). *)
Definition dnest_cmp (a b : lik) : Z :=
  if dlt (lv b) (lv a) then 0
  else if deqb (lv a) (lv b) && (tb b <? tb a) then 0
  else 1.

(** cmp_sample, cdnest/dnestpostprocess.c:475-487, on (logL, tiebreaker);
    see PostModel for the field it is used on. *)
Definition cmp_sample (a b : lik) : Z :=
  if dlt (lv b) (lv a) then 1
  else if deqb (lv a) (lv b) && (tb b <? tb a) then 1
  else 0.

(** mica_cmp, src/dnest_line.c:830-833. *)
Definition mica_cmp (a b : dbl) : Z :=
  match a, b with
  | Val x, Val y => if y <=? x then 1 else -1
  | _, _ => -1
  end.
