(** Sizes of the shared work arrays and the pieces carved from them, in bytes:
    src/read.c:931-954, src/init.c:135-136 and 283-304, and the routines named
    below.  A piece is given by its offset (the pointer arithmetic of the routine),
    by the number of bytes the routine accesses through it, and by the first and
    last step of the routine at which it is used. *)
From Coq Require Import List Arith Bool.
Import ListNotations.

(** A data set: number of points of the continuum and of each line. *)
Definition shape : Type := nat * list nat.
Definition points (s : shape) : nat := fst s + fold_right Nat.add 0 (snd s).
Record maxima := Maxima { ncon_max : nat; nline_max : nat; nall_max : nat; nlset_max : nat; nrec0 : nat }.
(** The loop src/read.c:936-954; nrec_max is taken with the maxima found so far. *)
Definition max_step (m : maxima) (s : shape) : maxima :=
  let nc := if ncon_max m <? fst s then fst s else ncon_max m in
  let na := if nall_max m <? points s then points s else nall_max m in
  let ns := if nlset_max m <? length (snd s) then length (snd s) else nlset_max m in
  let nl := fold_left (fun a n => if a <? n then n else a) (snd s) (nline_max m) in
  Maxima nc nl na ns (Nat.max (nrec0 m) (Nat.max nc nl * (1 + length (snd s)))).
Definition data_maxima (sets : list shape) : maxima := fold_left max_step sets (Maxima 0 0 0 0 0).
(** src/init.c:135-136 *)
Definition nrec_max (m : maxima) : nat := nrec0 m * 3.
(** src/init.c:300-304; [nq] is flag_trend + 1 (src/init.c:30). *)
Definition ns_of (m : maxima) (nq : nat) : nat := (1 + nlset_max m) * nq.
Definition workspace_doubles (m : maxima) (nq : nat) : nat :=
  5 * nall_max m + (2 * nall_max m + 2 * nrec_max m + 1 + ns_of m nq) * ns_of m nq.
Definition workspace_bytes (m : maxima) (nq : nat) : nat := workspace_doubles m nq * 8.
Definition workspace_inv_bytes (m : maxima) : nat := 3 * nall_max m * nall_max m * 8.
(** src/init.c:285, 303: in elements of type lapack_int *)
Definition workspace_ipiv_elems (m : maxima) : nat := if nrec_max m <? nall_max m then nall_max m else nrec_max m.
(** src/init.c:287-298: in doubles *)
Definition PCmat_doubles (m : maxima) : nat := nall_max m * nall_max m.
Definition USmat_doubles (m : maxima) : nat := nall_max m * nrec_max m.
Definition ASmat_doubles (m : maxima) : nat := nrec_max m * nrec_max m.

Record piece := Piece { off : nat; len : nat; born : nat; died : nat }.
(** A piece of doubles at offset [o] (in doubles). *)
Definition dbls (o n b d : nat) : piece := Piece (o * 8) (n * 8) b d.
(** A piece of ints (4 bytes) starting at offset [o] in doubles. *)
Definition ints (o n b d : nat) : piece := Piece (o * 8) (n * 4) b d.

(** *** prob_line_variability4, src/mc_line.c:2205-2310; prob_line_variability4_pmap,
    src/mc_pmap.c:296-410 and prob_line_variability_mmap, src/mc_mmap.c:990-1105 have
    the same pieces.  Steps for a set: 1 Larr, 2 narr, 3 fe, 4
    inverse_semiseparable_iter, 5 ybuf = C^-1 L, 6 Cq, 7 yq, 8 ybuf = q, 9 y, 10
    ybuf = C^-1 y.  The same pieces serve all sets in turn. *)
Definition like_pieces (m : maxima) (nq : nat) (s : shape) : list piece :=
  let ns := ns_of m nq in
  let M := nall_max m in
  let N := points s in
  let q := nq * (1 + length (snd s)) in
  let Larr := 0 in
  let ybuf := Larr + M * ns in
  let y := ybuf + M * ns in
  let yq := y + M in
  let Cq := yq + ns in
  let W := Cq + ns * ns in
  let D := W + M in
  let phi := D + M in
  let fe := phi + M in
  let narr := fe + M in
  [dbls Larr (N * q) 1 9; dbls ybuf (Nat.max (N * q) N) 5 10; dbls y N 9 10; dbls yq q 7 8; dbls Cq (q * q) 6 8;
   dbls W (fst s) 4 4; dbls D (fst s) 4 4; dbls phi (fst s) 4 4; dbls fe (fst s) 3 4; ints narr (1 + length (snd s)) 2 4].
(** *** prob_line_variability4_vmap, src/mc_vmap.c:443-537: no continuum. *)
Definition like_pieces_vmap (m : maxima) (nq : nat) (s : shape) : list piece :=
  let ns := ns_of m nq in
  let M := nall_max m in
  let N := points s in
  let q := nq * length (snd s) in
  let Larr := 0 in
  let ybuf := Larr + M * ns in
  let y := ybuf + M * ns in
  let yq := y + M in
  let Cq := yq + ns in
  let narr := Cq + ns * ns in
  [dbls Larr (N * q) 1 9; dbls ybuf (Nat.max (N * q) N) 5 10; dbls y N 9 10; dbls yq q 7 8; dbls Cq (q * q) 6 8;
   ints narr (length (snd s)) 2 4].
(** *** prob_con_variability_semiseparable, src/mc_con.c:583-650. Steps: 1 Larr, 2
    W, D, phi, 3 ybuf, 4 Cq, 5 yq, 6 ybuf = q, 7 y, 8 ybuf = C^-1 y with W, D, phi. *)
Definition con_pieces (m : maxima) (nq : nat) (s : shape) : list piece :=
  let M := ncon_max m in
  let n := fst s in
  let Larr := 0 in
  let ybuf := Larr + M * nq in
  let y := ybuf + M * nq in
  let yq := y + M in
  let Cq := yq + nq in
  let W := Cq + nq * nq in
  let D := W + M in
  let phi := D + M in
  [dbls Larr (n * nq) 1 7; dbls ybuf (Nat.max (n * nq) n) 3 8; dbls y n 7 8; dbls yq nq 5 6; dbls Cq (nq * nq) 4 6;
   dbls W n 2 8; dbls D n 2 8; dbls phi n 2 8].

(** Numbers of reconstruction points: src/mc_line.c:308-316 (the same for the
    decomposition, src/line_decomp.c:136, and mmap, src/mc_mmap.c:371). *)
Definition line_ntall (nd_rec : nat) (s : shape) : nat := Nat.min (fst s * 3) nd_rec * (1 + length (snd s)).
(** src/mc_vmap.c:746-762 *)
Definition vmap_ntall (nd_rec : nat) (s : shape) : nat :=
  fold_left (fun a n => Nat.max a (Nat.min (n * 3) nd_rec)) (snd s) 0 * (1 + length (snd s)).

(** *** reconstruct_line_from_varmodel3, src/mc_line.c:1723-1846, and
    reconstruct_line_from_varmodel_mmap, src/mc_mmap.c:682-810.  Steps: 1 Larr, 2
    narr, 3 fe, 4 inverse_semiseparable_iter, 5 ybuf, 6 Cq, 7 yuq, 8 Cq inverted, 9
    yq, 10 y, 11 S C^-1 y, 12 Larr_rec, 13 Larr_rec q, 14 S C^-1 L - Larr_rec, 15
    product with Cq, 16 last product. *)
Definition rec_pieces (m : maxima) (nq T : nat) (s : shape) : list piece :=
  let N := points s in
  let q := nq * (1 + length (snd s)) in
  let Larr := 0 in
  let ybuf := Larr + N * q in
  let y := ybuf + N * q in
  let Cq := y + N in
  let yq := Cq + q * q in
  let yuq := yq + q in
  let Larr_rec := yuq + T in
  let W := Larr_rec + T * q in
  let D := W + N in
  let phi := D + N in
  let fe := phi + N in
  let narr := fe + fst s in
  [dbls Larr (N * q) 1 14; dbls ybuf (N * q) 5 7; dbls y N 10 11; dbls Cq (q * q) 6 15; dbls yq q 9 13; dbls yuq q 7 9;
   dbls Larr_rec (T * q) 12 16; dbls W (fst s) 4 4; dbls D (fst s) 4 4; dbls phi (fst s) 4 4; dbls fe (fst s) 3 4;
   ints narr (1 + length (snd s)) 2 4].
(** *** decompose_single_component, src/line_decomp.c:692-800 (and _mmap,
    src/line_decomp_mmap.c:405-), reconstruct_line_from_varmodel_vmap,
    src/mc_vmap.c:1406-1520: [q] is nq*(1+nlset), in the last routine nq*nlset.
    Steps: 1 Larr, 2 Cq, 3 yq, 4 yave, 5 y, 6 S C^-1 y, 7 Larr_rec, 8 yuq, 9
    S C^-1 L, 10 Cq inverted and used. *)
Definition dec_pieces (q T : nat) (s : shape) : list piece :=
  let N := points s in
  let Larr := 0 in
  let ybuf := Larr + N * q in
  let y := ybuf + N * q in
  let Cq := y + N in
  let yq := Cq + q * q in
  let yave := yq + q in
  let yuq := yave + N in
  let Larr_rec := yuq + T in
  [dbls Larr (N * q) 1 9; dbls y N 5 6; dbls Cq (q * q) 2 10; dbls yq q 3 8; dbls yave N 4 5; dbls yuq T 8 8; dbls Larr_rec (T * q) 7 9].
(** *** recostruct_con_from_varmodel_semiseparable, src/mc_con.c:289-365, with ncon =
    3 ncon_data (src/mc_con.c:124).  Steps: 1 Larr, 2 W, D, phi, 3 ybuf, 4 Cq, 5
    yuq, 6 Cq inverted, 7 yq, 8 y, 9 products with W, D, phi, and y, 10 Larr_rec, 11
    Larr_rec q, 12 S C^-1 L - Larr_rec, 13 product with Cq, 14 last product. *)
Definition con_rec_pieces (nq : nat) (s : shape) : list piece :=
  let n := fst s in
  let T := n * 3 in
  let Larr := 0 in
  let ybuf := Larr + n * nq in
  let y := ybuf + n * nq in
  let Cq := y + n in
  let yq := Cq + nq * nq in
  let yuq := yq + nq in
  let Larr_rec := yuq + T in
  let W := Larr_rec + T * nq in
  let D := W + n in
  let phi := D + n in
  [dbls Larr (n * nq) 1 12; dbls ybuf (n * nq) 3 5; dbls y n 8 9; dbls Cq (nq * nq) 4 13; dbls yq nq 7 11; dbls yuq nq 5 7;
   dbls Larr_rec (T * nq) 10 14; dbls W n 2 9; dbls D n 2 9; dbls phi n 2 9].

(** *** inverse_semiseparable_iter, src/mathfun.c:1000-1090, and
    inverse_symat_partition_iter, src/mathfun.c:844-915, in one iteration with ni
    points done and n2 to add: A_i, AN_i, QN_i, SN_i and the work array of
    inverse_symat_lndet_partition_inv_fast (n1*n2).  A_i is stored anew with
    (ni+n2)^2 entries at the end of the iteration, reading AN_i, QN_i, SN_i. *)
Definition inv_pieces (nt ni n2 : nat) : list piece :=
  let Ai := 0 in
  let ANi := Ai + nt * nt in
  let QNi := ANi + ni * ni in
  let SNi := QNi + ni * n2 in
  let pwork := SNi + n2 * n2 in
  [dbls Ai ((ni + n2) * (ni + n2)) 1 3; dbls ANi (ni * ni) 2 3; dbls QNi (ni * n2) 1 3; dbls SNi (n2 * n2) 1 3; dbls pwork (ni * n2) 2 2].
