(** The symmetric factorisation and inverse that src/mathfun.c:203-283 asks
    LAPACK for: LAPACKE_dsytrf and LAPACKE_dsytri with 'U' on row-major arrays.
    These routines are not part of /repo.  What is written here is the published
    algorithm of the reference LAPACK (dsytf2 and dsytri, diagonal pivoting with
    the test of Bunch and Kaufman), over the real numbers, so that what the
    other files assume of the two routines can be checked against it.  Row-major
    arrays are transposed before and after with the same 'U', so the upper
    triangle of the matrix is meant throughout.

    Simplifications: a matrix is a function of two indices counted from zero;
    between the steps it is kept with both triangles, which are equal (only the
    upper one is stored in the array); the test for NaN is left out; the blocked
    version dlasyf, which makes the same choices and the same operations in
    another order, is not separate. *)
From Coq Require Import Reals List Arith ZArith.
From Verif Require Import SemisepModel SemisepProofs.
Open Scope R_scope.

(** idamax: the first of the indices below m where |f| is largest. *)
Fixpoint idamax (m : nat) (f : nat -> R) : nat :=
  match m with
  | O => O
  | S k => let b := idamax k f in
           if Nat.eqb k 0 then O else if Rlt_dec (Rabs (f b)) (Rabs (f k)) then k else b
  end.
(** ROWMAX: the largest |A r j| with j < m, j <> r. *)
Fixpoint offmax (m r : nat) (A : nat -> nat -> R) : R :=
  match m with
  | O => 0
  | S j => if Nat.eqb j r then offmax j r A else Rmax (offmax j r A) (Rabs (A r j))
  end.
(** Rows and columns p and q exchanged. *)
Definition exch (p q i : nat) : nat := if Nat.eqb i p then q else if Nat.eqb i q then p else i.
Definition swap_both (p q : nat) (A : nat -> nat -> R) (i j : nat) : R := A (exch p q i) (exch p q j).

Definition bk_alpha : R := (1 + sqrt 17) / 8.
(** The pivot for the last of the leading k+1 rows: a column of zeros, one
    diagonal entry (of row p), or a 2 x 2 block (of row p and the last). *)
Inductive pivot := Zeros | One (p : nat) | Two (p : nat).
Definition pivot_of (k : nat) (A : nat -> nat -> R) : pivot :=
  let absakk := Rabs (A k k) in
  let imax := idamax k (fun i => A i k) in
  let colmax := if Nat.eqb k 0 then 0 else Rabs (A imax k) in
  if Req_EM_T (Rmax absakk colmax) 0 then Zeros
  else if Rle_dec (bk_alpha * colmax) absakk then One k
  else
    let rowmax := offmax (S k) imax A in
    if Rle_dec (bk_alpha * colmax * (colmax / rowmax)) absakk then One k
    else if Rle_dec (bk_alpha * rowmax) (Rabs (A imax imax)) then One imax
    else Two imax.

(** dsytf2('U') on the leading m rows: the columns of U and the blocks of D in
    the upper triangle, and the pivots: ip k = p+1 for a single pivot, ip k =
    ip (k-1) = -(p+1) for a block in rows k-1 and k. *)
Definition set_ip (ip : nat -> Z) (k : nat) (v : Z) : nat -> Z := fun i => if Nat.eqb i k then v else ip i.
Fixpoint bk_trf (m : nat) (A : nat -> nat -> R) : (nat -> nat -> R) * (nat -> Z) :=
  match m with
  | O => (A, fun _ => 0%Z)
  | S k =>
    match pivot_of k A with
    | Zeros => let '(F, ip) := bk_trf k A in
        (fun i j => if Nat.eqb j k then A i k else F i j, set_ip ip k (Z.of_nat (k + 1)))
    | One p => let B := swap_both p k A in let d := B k k in
        let '(F, ip) := bk_trf k (fun i j => B i j - 1 / d * B i k * B j k) in
        (fun i j => if Nat.eqb j k then (if Nat.eqb i k then d else 1 / d * B i k) else F i j, set_ip ip k (Z.of_nat (p + 1)))
    | Two p =>
      match k with
      | O => (A, fun _ => 0%Z)
      | S h => let B := swap_both p h A in
        let d12 := B h k in let d22 := B h h / d12 in let d11 := B k k / d12 in
        let t := 1 / (d11 * d22 - 1) in let e := t / d12 in
        let wkm1 := fun j => e * (d11 * B j h - B j k) in
        let wk := fun j => e * (d22 * B j k - B j h) in
        let '(F, ip) := bk_trf h (fun i j => B i j - B i k * wk j - B i h * wkm1 j) in
        (fun i j => if Nat.eqb j k then (if Nat.ltb i h then wk i else B i k)
                    else if Nat.eqb j h then (if Nat.ltb i h then wkm1 i else B i h) else F i j,
         set_ip (set_ip ip k (- Z.of_nat (p + 1))) h (- Z.of_nat (p + 1)))
      end
    end
  end.

(** The leading k x k matrix X with q more rows and columns. *)
Definition bord (k : nat) (X : nat -> nat -> R) (c : nat -> nat -> R) (e : nat -> nat -> R) (i j : nat) : R :=
  if Nat.ltb i k then (if Nat.ltb j k then X i j else c i (j - k)%nat)
  else if Nat.ltb j k then c j (i - k)%nat else e (i - k)%nat (j - k)%nat.
(** dsytri('U'): the inverse from the factors, for the leading m rows. *)
Fixpoint bk_tri (m : nat) (V : nat -> nat -> R) (ip : nat -> Z) : nat -> nat -> R :=
  match m with
  | O => fun _ _ => 0
  | S k =>
    if Z.ltb 0 (ip k) then
      let X := bk_tri k V ip in
      let c := fun i => - sumn k (fun l => X i l * V l k) in
      let e := 1 / V k k - sumn k (fun l => V l k * c l) in
      swap_both (Z.to_nat (ip k) - 1) k (bord k X (fun i _ => c i) (fun _ _ => e))
    else
      match k with
      | O => fun _ _ => 0
      | S h =>
        let X := bk_tri h V ip in
        let t := Rabs (V h k) in let ak := V h h / t in let akp1 := V k k / t in let akkp1 := V h k / t in
        let d := t * (ak * akp1 - 1) in
        let ch := fun i => - sumn h (fun l => X i l * V l h) in
        let ck := fun i => - sumn h (fun l => X i l * V l k) in
        let ehh := akp1 / d - sumn h (fun l => V l h * ch l) in
        let ehk := - akkp1 / d - sumn h (fun l => ch l * V l k) in
        let ekk := ak / d - sumn h (fun l => V l k * ck l) in
        swap_both (Z.to_nat (- ip k) - 1) h
          (bord h X (fun i b => if Nat.eqb b 0 then ch i else ck i)
             (fun a b => if Nat.eqb a 0 then (if Nat.eqb b 0 then ehh else ehk) else (if Nat.eqb b 0 then ehk else ekk)))
      end
  end.

(** The two routines as src/mathfun.c:207-214, 234-242 and 255-270 call them. *)
Definition both (U : nat -> nat -> R) (i j : nat) : R := U (Nat.min i j) (Nat.max i j).
Definition bk_dsytrf (n : nat) (U : nat -> nat -> R) : (nat -> nat -> R) * (nat -> Z) := bk_trf n (both U).
Definition bk_dsytri (n : nat) (V : nat -> nat -> R) (ip : nat -> Z) : nat -> nat -> R := bk_tri n V ip.
(** dsytri returns a code other than zero if a single pivot is zero. *)
Fixpoint bk_fails (n : nat) (V : nat -> nat -> R) (ip : nat -> Z) : bool :=
  match n with
  | O => false
  | S k => if Z.ltb 0 (ip k) then (if Req_EM_T (V k k) 0 then true else bk_fails k V ip) else bk_fails k V ip
  end.
