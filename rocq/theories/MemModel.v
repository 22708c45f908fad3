(** The blocks of memory the program allocates for its matrices and work
    arrays, where each routine puts its arrays inside those blocks, and which
    elements of them it touches.

    Sources: read.c:930-954 (maximum sizes), init.c:135-136 and 282-304
    ([allocate_memory]), mc_line.c:2371-2372, mc_mmap.c:842-846 and
    mc_vmap.c:271-272 (work matrices of the kernels), mc_line.c:301-325 and
    mc_vmap.c:740-765 (output arrays), mathfun.c:20-300, 506-630, 795-1080
    (matrix routines), mc_con.c:183-370, 475-690, mc_line.c:1692-1855 and
    2192-2320, mc_mmap.c:650-815 and 977-1110, mc_pmap.c:280-420,
    mc_vmap.c:430-540, 544-605 and 1382-1545, line_decomp.c:660-855 and
    line_decomp_mmap.c:370-570.

    Values are left out: a routine is the list of the accesses it makes, each a
    pointer and a set of element numbers.  Sizes are binary natural numbers.
    [malloc] is assumed to succeed.  The arrays with the data themselves
    ([con.t], [line[j].f], [alldata[k].f] ...) and the parameter vectors are not
    among the blocks. *)
From Coq Require Import NArith ZArith List String Bool Lia.
From Verif Require Import CPrelude.
Import ListNotations.
Local Open Scope N_scope.
Local Open Scope list_scope.

(** * The data: number of points of the continuum and of each line of a set
    (read.c:577-604; lines without points are not counted). *)
Record curves := { con : N; lines : list N }.

Definition sumN (l : list N) : N := fold_right N.add 0 l.
Definition nlset (d : curves) : N := N.of_nat (List.length (lines d)).
(** [alldata[i].n], read.c:909-912. *)
Definition nall (d : curves) : N := con d + sumN (lines d).

(** * Maximum sizes (read.c:930-954).  [nrec_max] is computed with [fmax], in
    doubles that represent these integers exactly, and converted to [int]. *)
Record maxima := { ncon_max : N; nline_max : N; nall_max : N; nlset_max : N; nrec_max : N }.

Definition max0 : maxima := {| ncon_max := 0; nline_max := 0; nall_max := 0; nlset_max := 0; nrec_max := 0 |}.

Definition max_step (m : maxima) (d : curves) : maxima :=
  let nc := if ncon_max m <? con d then con d else ncon_max m in
  let na := if nall_max m <? nall d then nall d else nall_max m in
  let ns := if nlset_max m <? nlset d then nlset d else nlset_max m in
  let nl := fold_left (fun x n => if x <? n then n else x) (lines d) (nline_max m) in
  {| ncon_max := nc; nline_max := nl; nall_max := na; nlset_max := ns;
     nrec_max := N.max (nrec_max m) (N.max nc nl * (1 + nlset d)) |}.

Definition read_max (data : list curves) : maxima := fold_left max_step data max0.

(** init.c:135-136: [nscale = 3; nrec_max *= nscale]. *)
Definition nscale : N := 3.
Definition scale_max (m : maxima) : maxima :=
  {| ncon_max := ncon_max m; nline_max := nline_max m; nall_max := nall_max m;
     nlset_max := nlset_max m; nrec_max := nrec_max m * nscale |}.

Definition maxima_of (data : list curves) : maxima := scale_max (read_max data).

(** * Blocks *)
Inductive blk :=
| Bwork | Binv | Bipiv
| BPN | BPS | BPC | BIPC | BUS | BUST | BAS | BT1 | BT2
| Bslc | Bsll | Bslcb | Bsllb
| Bpe1 | Bpe2 | Bpe3 | Bpe4
| Bfall | Bfeall | Byqall.

Definition blk_eq_dec : forall a b : blk, {a = b} + {a <> b}.
Proof. decide equality. Defined.

(** Sizes of the blocks in bytes. *)
Definition heap := blk -> N.

(** An [int] expression: all its parts are sums and products of numbers that
    are not negative, so it is within range if its value is; otherwise the
    arithmetic overflows, which is undefined. *)
Definition int_max : N := 2147483647.
Definition int_ (n : N) : outcome N := if n <=? int_max then Ok n else UB.

(** The [int] expressions of [allocate_memory] (init.c:286-304), in doubles or
    [lapack_int]s; [nrec_max] itself is converted and multiplied before
    (read.c:953, init.c:136), and [ncon_max*nline_max], [nline_max*nline_max]
    are those of mc_line.c:2371-2372. *)
Definition ns_of (m : maxima) (nq : N) : N := (1 + nlset_max m) * nq.
Definition n_work (m : maxima) (nq : N) : N :=
  5 * nall_max m + (2 * nall_max m + 2 * nrec_max m + 1 + ns_of m nq) * ns_of m nq.
Definition n_ipiv (m : maxima) : N := if nrec_max m <? nall_max m then nall_max m else nrec_max m.

Definition allocate (data : list curves) (nq : N) : outcome heap :=
  let m := maxima_of data in
  nr <- int_ (nrec_max m) ;;
  aa <- int_ (nall_max m * nall_max m) ;;
  ar <- int_ (nall_max m * nrec_max m) ;;
  rr <- int_ (nrec_max m * nrec_max m) ;;
  wk <- int_ (n_work m nq) ;;
  iv <- int_ (3 * nall_max m * nall_max m) ;;
  lc <- int_ (ncon_max m * nline_max m) ;;
  ll <- int_ (nline_max m * nline_max m) ;;
  Ok (fun b => match b with
       | BPN | BPS | BPC | BIPC | BT1 | BT2 => 8 * aa
       | BUS | BUST => 8 * ar
       | BAS => 8 * rr
       | Bwork => 8 * wk
       | Bipiv => 4 * n_ipiv m
       | Binv => 8 * iv
       | Bslc | Bslcb => 8 * lc
       | Bsll | Bsllb => 8 * ll
       | Byqall => 8 * (nq * (1 + nlset_max m))      (* mc_line.c:301 *)
       | _ => 0
       end).

(** * Pointers and accesses *)
(** A pointer: the array's name in the routine, with the number of the pass of
    the loop it belongs to (0 for arrays of the whole routine); its block; the
    byte it starts at; the size of an element. *)
Record ptr := { nm : string * N; bk : blk; off : N; es : N }.

Definition base (s : string) (b : blk) : ptr := {| nm := (s, 0); bk := b; off := 0; es := 8 |}.
Definition ibase (s : string) (b : blk) : ptr := {| nm := (s, 0); bk := b; off := 0; es := 4 |}.
(** [s = p + n] *)
Definition adv (s : string) (p : ptr) (n : N) : ptr :=
  {| nm := (s, 0); bk := bk p; off := off p + es p * n; es := es p |}.
(** the same in pass [k] of a loop *)
Definition advk (s : string) (k : N) (p : ptr) (n : N) : ptr :=
  {| nm := (s, k); bk := bk p; off := off p + es p * n; es := es p |}.
(** [s = (int * )(p + n)] *)
Definition advi (s : string) (p : ptr) (n : N) : ptr :=
  {| nm := (s, 0); bk := bk p; off := off p + es p * n; es := 4 |}.

Definition access := (ptr * (N -> Prop))%type.

(** Elements [0 .. n-1]; elements [a .. a+n-1]; rows [r0 .. r0+m-1] and columns
    [c0 .. c0+c-1] of a matrix with [w] columns kept by rows. *)
Definition upto (n : N) : N -> Prop := fun k => k < n.
Definition from (a n : N) : N -> Prop := fun k => exists i, i < n /\ k = a + i.
Definition box (w r0 m c0 c : N) : N -> Prop :=
  fun k => exists i j, i < m /\ j < c /\ k = (r0 + i) * w + (c0 + j).
Definition mat (m n : N) : N -> Prop := box n 0 m 0 n.

(** ** Matrix routines *)
(** [multiply_mat_MN(a, b, c, m, n, k)] and [_alpha_beta], mathfun.c:37-48. *)
Definition mul_MN (a b c : ptr) (m n k : N) : list access := [(a, mat m k); (b, mat k n); (c, mat m n)].
(** [multiply_mat_MN_transposeA], mathfun.c:49-61: [a] is [k x m]. *)
Definition mul_TA (a b c : ptr) (m n k : N) : list access := [(a, mat k m); (b, mat k n); (c, mat m n)].
(** [multiply_mat_MN_transposeB], mathfun.c:62-74: [b] is [n x k]. *)
Definition mul_TB (a b c : ptr) (m n k : N) : list access := [(a, mat m k); (b, mat n k); (c, mat m n)].
(** [multiply_matvec], mathfun.c:76-79; [x] is an array of the data where [None]. *)
Definition opt (p : option ptr) (s : N -> Prop) : list access := match p with Some a => [(a, s)] | None => [] end.
Definition matvec (a : ptr) (x : option ptr) (n : N) (y : ptr) : list access :=
  (a, mat n n) :: opt x (upto n) ++ [(y, upto n)].
(** [multiply_matvec_MN] and [_alpha_beta], mathfun.c:86-94. *)
Definition matvec_MN (a : ptr) (m n : N) (x y : ptr) : list access := [(a, mat m n); (x, upto n); (y, upto m)].
(** [multiply_matvec_MN_transposeA] and [_alpha_beta], mathfun.c:96-104. *)
Definition matvec_TA (a : ptr) (m n : N) (x : option ptr) (y : ptr) : list access :=
  (a, mat m n) :: opt x (upto m) ++ [(y, upto n)].
(** [multiply_mat_MN_inverseA], mathfun.c:107-125. *)
Definition mul_invA (a b : ptr) (m n : N) (ipiv : ptr) : list access := [(a, mat m m); (b, mat m n); (ipiv, upto m)].
(** [inverse_mat], [inverse_symat], [inverse_symat_lndet] and [_sign],
    [lndet_mat3], mathfun.c:132-284, 400-425. *)
Definition inv_ (a : ptr) (n : N) (ipiv : ptr) : list access := [(a, mat n n); (ipiv, upto n)].

(** [compute_semiseparable_drw], mathfun.c:506-527: element 0 is used before the
    loop; [sig] is an array of the data where [None]. *)
Definition semi_compute (n : N) (sig : option ptr) (W D phi : ptr) : list access :=
  [(phi, upto 1); (phi, upto n); (D, upto 1); (D, upto n); (W, upto 1); (W, upto n)] ++ opt sig (upto 1) ++ opt sig (upto n).
(** [multiply_matvec_semiseparable_drw], mathfun.c:533-556. *)
Definition semi_vec (y W D phi : ptr) (n : N) (z : ptr) : list access :=
  [(z, upto 1); (y, upto 1); (z, upto n); (y, upto n); (W, upto n); (D, upto n); (phi, upto n)].
(** [multiply_mat_semiseparable_drw], mathfun.c:562-592: row 0 is used before the loop. *)
Definition semi_mat (Y W D phi : ptr) (n m : N) (Z : ptr) : list access :=
  [(Z, box m 0 1 0 m); (Y, box m 0 1 0 m); (Z, mat n m); (Y, mat n m); (W, upto n); (D, upto n); (phi, upto n)].
(** [multiply_mat_transposeB_semiseparable_drw], mathfun.c:598-628: [Y] is [m x n]. *)
Definition semi_matT (Y W D phi : ptr) (n m : N) (Z : ptr) : list access :=
  [(Z, box m 0 1 0 m); (Y, box n 0 m 0 1); (Z, mat n m); (Y, mat m n); (W, upto n); (D, upto n); (phi, upto n)].

(** [inverse_semiseparable], mathfun.c:961-993. *)
Definition semi_inverse (n : N) (sig : option ptr) (W D phi A : ptr) : list access :=
  semi_compute n sig W D phi ++ [(A, mat n n); (D, upto n); (W, upto n)].

(** [inverse_symat_lndet_partition_inv_semiseparable], mathfun.c:925-953, called
    with [SN = S] and [QN = Q]. *)
Definition part_semi (Pinv W D phi S Q : ptr) (n1 n2 : N) (PN work ipiv : ptr) : list access :=
  semi_mat Q W D phi n1 n2 work ++ mul_TA Q work S n2 n2 n1 ++ inv_ S n2 ipiv ++ mul_MN work S Q n1 n2 n2 ++
  [(PN, upto (n1 * n1)); (Pinv, upto (n1 * n1))] ++ mul_TB Q work PN n1 n1 n2.
(** [inverse_symat_lndet_partition_inv_fast], mathfun.c:795-818. *)
Definition part_fast (Pinv S Q : ptr) (n1 n2 : N) (PN work ipiv : ptr) : list access :=
  mul_MN Pinv Q work n1 n2 n1 ++ mul_TA Q work S n2 n2 n1 ++ inv_ S n2 ipiv ++ mul_MN work S Q n1 n2 n2 ++
  [(PN, upto (n1 * n1)); (Pinv, upto (n1 * n1))] ++ mul_TB Q work PN n1 n1 n2.

(** One pass of the loop of [inverse_semiseparable_iter] (mathfun.c:1013-1076)
    or [inverse_symat_partition_iter] (mathfun.c:866-918): the arrays are placed
    after [Ai], which holds the inverse so far; the last pass writes to [A]. *)
Definition iter_pass (semi : option (ptr * ptr * ptr)) (A Ai narr ipiv : ptr) (nt k ni nq : N) (last : bool) : list access :=
  let ANi := advk "ANi" k Ai (nt * nt) in
  let QNi := advk "QNi" k ANi (ni * ni) in
  let SNi := advk "SNi" k QNi (ni * nq) in
  let pwork := advk "pwork" k SNi (nq * nq) in
  let out := if last then A else Ai in
  [(narr, from k 1)] ++
  [(QNi, mat ni nq); (A, box nt 0 ni ni nq)] ++
  [(SNi, mat nq nq); (A, box nt ni nq ni nq)] ++
  match semi with
  | Some (W, D, phi) => if k =? 1 then part_semi Ai W D phi SNi QNi ni nq ANi pwork ipiv
                        else part_fast Ai SNi QNi ni nq ANi pwork ipiv
  | None => part_fast Ai SNi QNi ni nq ANi pwork ipiv
  end ++
  [(out, box (ni + nq) 0 ni 0 ni); (ANi, mat ni ni)] ++
  [(out, box (ni + nq) 0 ni ni nq); (out, box (ni + nq) ni nq 0 ni); (QNi, mat ni nq)] ++
  [(out, box (ni + nq) ni nq ni nq); (SNi, mat nq nq)].

Fixpoint iter_passes semi (A Ai narr ipiv : ptr) (nt k ni : N) (rest : list N) : list access :=
  match rest with
  | [] => []
  | nq :: r => iter_pass semi A Ai narr ipiv nt k ni nq (match r with [] => true | _ => false end) ++
               iter_passes semi A Ai narr ipiv nt (k + 1) (ni + nq) r
  end.

(** [inverse_semiseparable_iter(t, n, ..., fe, ..., W, D, phi, A, nt, narr, np,
    ..., work_inv, ipiv)], mathfun.c:1000-1080; [ps] are the entries of [narr]. *)
Definition semi_iter (fe W D phi A : ptr) (nt : N) (narr : ptr) (ps : list N) (ipiv : ptr) : list access :=
  let Ai := base "Ai" Binv in
  match ps with
  | [] => []
  | n0 :: r => [(narr, from 0 1)] ++ semi_inverse n0 (Some fe) W D phi Ai ++
               iter_passes (Some (W, D, phi)) A Ai narr ipiv nt 1 n0 r
  end.

(** [inverse_symat_partition_iter], mathfun.c:844-920. *)
Definition part_iter (A : ptr) (nt : N) (narr : ptr) (ps : list N) (ipiv : ptr) : list access :=
  let Ai := base "Ai" Binv in
  match ps with
  | [] => []
  | n0 :: r => [(narr, from 0 1); (Ai, mat n0 n0); (A, box nt 0 n0 0 n0)] ++ inv_ Ai n0 ipiv ++
               iter_passes None A Ai narr ipiv nt 1 n0 r
  end.

(** ** Covariance matrices *)
(** Curves one after another: first point, number of points, number of the curve. *)
Fixpoint segs (p j : N) (l : list N) : list (N * N * N) :=
  match l with [] => [] | n :: r => (p, n, j) :: segs (p + n) (j + 1) r end.

(** The entries of the covariance matrix of width [w] for the points of curves
    [r] by those of curves [c].  The loops over pairs with a smaller second
    number and the entry mirrored are the whole block here. *)
Definition pairs (p : ptr) (w : N) (r c : list (N * N * N)) : list access :=
  flat_map (fun a => map (fun b => let '(r0, m, _) := a in let '(c0, n, _) := b in (p, box w r0 m c0 n)) c) r.

Definition PCmat := base "PCmat" BPC.
Definition PSmat := base "PSmat" BPS.
Definition PNmat := base "PNmat" BPN.
Definition IPCmat := base "IPCmat" BIPC.
Definition USmat := base "USmat" BUS.
Definition USmatT := base "USmatT" BUST.
Definition ASmat := base "ASmat" BAS.
Definition Smat_lc := base "Smat_lc" Bslc.
Definition Smat_ll := base "Smat_ll" Bsll.
Definition Smat_lc_buf := base "Smat_lc_buf" Bslcb.
Definition Smat_ll_buf := base "Smat_ll_buf" Bsllb.
Definition ipiv := ibase "ipiv" Bipiv.

(** [set_covar_Pmat_data], mc_con.c:689-713. *)
Definition covar_P_con (n : N) : list access := [(PSmat, mat n n); (PNmat, mat n n); (PCmat, mat n n)].
(** [set_covar_Umat], mc_con.c:719-734. *)
Definition covar_U_con (nd n : N) : list access := [(USmat, mat n nd)].

(** [set_covar_Pmat_data_line], mc_line.c:2431-2523, [..._vmap],
    mc_vmap.c:1547-1606: every pair of curves. *)
Definition covar_P_line (w : N) (l : list N) : list access :=
  pairs PCmat w (segs 0 0 l) (segs 0 0 l) ++ pairs PSmat w (segs 0 0 l) (segs 0 0 l).
(** Work matrices of the kernels: continuum by each line; each line by itself
    and by the lines after it. *)
Definition slc (p : ptr) (c : N) (l : list N) : list access := map (fun n => (p, mat c n)) l.
Fixpoint sll (p : ptr) (l : list N) : list access :=
  match l with [] => [] | n :: r => (p, mat n n) :: map (fun n2 => (p, mat n n2)) r ++ sll p r end.
(** [set_covar_Pmat_data_line_array], mc_line.c:2530-2628, and [..._mmap],
    mc_mmap.c:1115-1212, with the buffers of the kernels, mc_mmap.c:2712-2740,
    2949-2985, 4137-4170. *)
Definition covar_P_array (d : curves) : list access :=
  covar_P_line (nall d) (con d :: lines d) ++ slc Smat_lc (con d) (lines d) ++ sll Smat_ll (lines d).
Definition covar_P_array_mmap (d : curves) : list access :=
  covar_P_array d ++ slc Smat_lc_buf (con d) (lines d) ++ sll Smat_ll_buf (lines d).
(** [set_covar_Pmat_data_line_array_vmap], mc_vmap.c:544-602. *)
Definition covar_P_array_vmap (d : curves) : list access :=
  covar_P_line (nall d) (lines d) ++ sll Smat_ll (lines d).
(** [set_covar_Umat_line], mc_line.c:2634-2722, [..._single],
    line_decomp.c:863-955, [..._mmap], mc_mmap.c:1218-1306, and [..._vmap],
    mc_vmap.c:1611-1687, where [l] is only the lines. *)
Definition covar_U_line (w : N) (rec l : list N) : list access := pairs USmat w (segs 0 0 rec) (segs 0 0 l).
(** [set_covar_Amat_line], mc_line.c:2728-2800, and its variants. *)
Definition covar_A_line (rec : list N) : list access := pairs ASmat (sumN rec) (segs 0 0 rec) (segs 0 0 rec).

(** ** The matrix of the trends *)
(** For the continuum, mc_line.c:2243-2251: column 0, columns 1 to [nq-1], and zeros after. *)
Definition trend_con (L : ptr) (q nq n : N) : list access :=
  [(L, box q 0 n 0 1); (L, box q 0 n 1 (nq - 1)); (L, box q 0 n nq (q - nq))].
(** For the lines, mc_line.c:2252-2265: zeros, then the columns of the line;
    [c0] is [nq], or 0 in the virtual mode (mc_vmap.c:466-479). *)
Definition trend_lines (L : ptr) (q nq c0 : N) (sg : list (N * N * N)) : list access :=
  flat_map (fun a => let '(p, n, j) := a in
     [(L, box q p n 0 q); (L, box q p n (c0 + j * nq + 0) 1); (L, box q p n (c0 + j * nq + 1) (nq - 1))]) sg.

(** * The routines *)
(** A routine's own matrices: block and size as an [int] expression. *)
Definition locals := list (blk * N).
Fixpoint with_locals (h : heap) (l : locals) : heap :=
  match l with
  | [] => h
  | (b, n) :: r => with_locals (fun x => if blk_eq_dec x b then 8 * n else h x) r
  end.

Record routine := { own : locals; accs : list access }.

(** [prob_con_variability], mc_con.c:475-566, for one set. *)
Definition prob_con (M : maxima) (nq : N) (d : curves) : routine :=
  let n := con d in
  let Larr := base "Larr" Bwork in
  let ybuf := adv "ybuf" Larr (ncon_max M * nq) in
  let y := adv "y" ybuf (ncon_max M * nq) in
  let yq := adv "yq" y (ncon_max M) in
  let Cq := adv "Cq" yq nq in
  let ICq := adv "ICq" Cq (nq * nq) in
  {| own := [];
     accs :=
       [(Larr, box nq 0 n 0 1); (Larr, box nq 0 n 1 (nq - 1))] ++
       covar_P_con n ++ [(IPCmat, upto (n * n)); (PCmat, upto (n * n))] ++ inv_ IPCmat n ipiv ++
       mul_MN IPCmat Larr ybuf n nq n ++ mul_TA Larr ybuf Cq nq nq n ++
       [(ICq, upto (nq * nq)); (Cq, upto (nq * nq))] ++
       matvec IPCmat None n ybuf ++ mul_TA Larr ybuf yq nq 1 n ++
       inv_ Cq nq ipiv ++ mul_MN Cq yq ybuf nq 1 nq ++
       matvec_MN Larr n nq ybuf y ++ [(y, upto n)] ++
       matvec IPCmat (Some y) n ybuf ++ [(y, upto n); (ybuf, upto n)] ++
       inv_ PCmat n ipiv ++ inv_ ICq nq ipiv |}.

(** [prob_con_variability_semiseparable], mc_con.c:568-650. *)
Definition prob_con_semi (M : maxima) (nq : N) (d : curves) : routine :=
  let n := con d in
  let Larr := base "Larr" Bwork in
  let ybuf := adv "ybuf" Larr (ncon_max M * nq) in
  let y := adv "y" ybuf (ncon_max M * nq) in
  let yq := adv "yq" y (ncon_max M) in
  let Cq := adv "Cq" yq nq in
  let W := adv "W" Cq (nq * nq) in
  let D := adv "D" W (ncon_max M) in
  let phi := adv "phi" D (ncon_max M) in
  {| own := [];
     accs :=
       [(Larr, box nq 0 n 0 1); (Larr, box nq 0 n 1 (nq - 1))] ++
       semi_compute n None W D phi ++ [(D, upto n)] ++
       semi_mat Larr W D phi n nq ybuf ++ mul_TA Larr ybuf Cq nq nq n ++
       matvec_TA ybuf n nq None yq ++ inv_ Cq nq ipiv ++ mul_MN Cq yq ybuf nq 1 nq ++
       [(y, upto n)] ++ matvec_MN Larr n nq ybuf y ++
       semi_vec y W D phi n ybuf ++ [(y, upto n); (ybuf, upto n)] |}.

(** Output arrays: [fall], [feall] with a place for each time (mc_line.c:320-322,
    mc_con.c:104-106), [yqall] (mc_line.c:301). *)
Definition fall := base "fall" Bfall.
Definition feall := base "feall" Bfeall.
Definition yqall := base "yqall" Byqall.
Definition PEmat1 := base "PEmat1" Bpe1.
Definition PEmat2 := base "PEmat2" Bpe2.
Definition PEmat3 := base "PEmat3" Bpe3.
Definition PEmat4 := base "PEmat4" Bpe4.

(** [recostruct_con_from_varmodel], mc_con.c:182-276; [ncon = 3 * con.n],
    mc_con.c:104-106, 124; [yq] of mc_con.c:108. *)
Definition rec_con (M : maxima) (nq : N) (d : curves) : routine :=
  let nd := con d in
  let n := con d * nscale in
  let Larr := base "Larr" Bwork in
  let ybuf := adv "ybuf" Larr (nd * nq) in
  let y := adv "y" ybuf (nd * nq) in
  let Cq := adv "Cq" y nd in
  let yq := adv "yq" Cq (nq * nq) in
  let yuq := adv "yuq" yq nq in
  let Larr_rec := adv "Larr_rec" yuq n in
  {| own := [(Bpe1, n * nd); (Bpe2, n * n); (Bpe3, n * nq); (Bpe4, n * n);
             (Bfall, ncon_max M * nscale); (Bfeall, ncon_max M * nscale); (Byqall, nq)];
     accs :=
       covar_P_con nd ++ covar_U_con nd n ++ inv_ PCmat nd ipiv ++
       [(Larr, box nq 0 nd 0 1); (Larr, box nq 0 nd 1 (nq - 1))] ++
       mul_MN PCmat Larr ybuf nd nq nd ++ mul_TA Larr ybuf Cq nq nq nd ++
       matvec PCmat None nd ybuf ++ mul_TA Larr ybuf yuq nq 1 nd ++
       inv_ Cq nq ipiv ++ mul_MN Cq yuq yq nq 1 nq ++ [(yqall, upto nq); (yq, upto nq)] ++
       matvec_MN Larr nd nq yq ybuf ++ [(y, upto nd); (ybuf, upto nd)] ++
       matvec PCmat (Some y) nd ybuf ++ matvec_MN USmat n nd ybuf fall ++
       [(Larr_rec, box nq 0 n 0 1); (Larr_rec, box nq 0 n 1 (nq - 1))] ++
       matvec_MN Larr_rec n nq yq yuq ++ [(fall, upto n); (yuq, upto n)] ++
       mul_MN USmat PCmat PEmat1 n nd nd ++ mul_TB PEmat1 USmat PEmat2 n n nd ++
       mul_MN PEmat1 Larr PEmat3 n nq nd ++ [(PEmat3, upto (n * nq)); (Larr_rec, upto (n * nq))] ++
       mul_MN PEmat3 Cq PEmat1 n nq nq ++ mul_TB PEmat1 PEmat3 PEmat4 n n nq ++
       [(feall, upto n); (PEmat2, box n 0 n 0 n); (PEmat4, box n 0 n 0 n)] |}.

(** [recostruct_con_from_varmodel_semiseparable], mc_con.c:279-366. *)
Definition rec_con_semi (M : maxima) (nq : N) (d : curves) : routine :=
  let nd := con d in
  let n := con d * nscale in
  let Larr := base "Larr" Bwork in
  let ybuf := adv "ybuf" Larr (nd * nq) in
  let y := adv "y" ybuf (nd * nq) in
  let Cq := adv "Cq" y nd in
  let yq := adv "yq" Cq (nq * nq) in
  let yuq := adv "yuq" yq nq in
  let Larr_rec := adv "Larr_rec" yuq n in
  let W := adv "W" Larr_rec (n * nq) in
  let D := adv "D" W nd in
  let phi := adv "phi" D nd in
  {| own := [(Bpe1, n * nd); (Bpe2, n * n);
             (Bfall, ncon_max M * nscale); (Bfeall, ncon_max M * nscale); (Byqall, nq)];
     accs :=
       covar_U_con nd n ++
       [(Larr, box nq 0 nd 0 1); (Larr, box nq 0 nd 1 (nq - 1))] ++
       semi_compute nd None W D phi ++
       semi_mat Larr W D phi nd nq ybuf ++ mul_TA Larr ybuf Cq nq nq nd ++
       matvec_TA ybuf nd nq None yuq ++ inv_ Cq nq ipiv ++ mul_MN Cq yuq yq nq 1 nq ++
       [(yqall, upto nq); (yq, upto nq)] ++
       [(y, upto nd)] ++ matvec_MN Larr nd nq yq y ++
       semi_matT USmat W D phi nd n PEmat1 ++ matvec_TA PEmat1 nd n (Some y) fall ++
       [(Larr_rec, box nq 0 n 0 1); (Larr_rec, box nq 0 n 1 (nq - 1))] ++
       matvec_MN Larr_rec n nq yq fall ++
       mul_MN USmat PEmat1 PEmat2 n n nd ++ mul_TA PEmat1 Larr Larr_rec n nq nd ++
       mul_MN Larr_rec Cq PEmat1 n nq nq ++ mul_TB PEmat1 Larr_rec PEmat2 n n nq ++
       [(feall, upto n); (PEmat2, box n 0 n 0 n)] |}.

(** [prob_line_variability4], mc_line.c:2192-2320 (and mc_pmap.c:280-412), for
    one set; [cov] is the accesses of the covariance matrix. *)
Definition prob_line_with (cov : list access) (M : maxima) (nq : N) (d : curves) : routine :=
  let ns := ns_of M nq in
  let Larr := base "Larr" Bwork in
  let ybuf := adv "ybuf" Larr (nall_max M * ns) in
  let y := adv "y" ybuf (nall_max M * ns) in
  let yq := adv "yq" y (nall_max M) in
  let Cq := adv "Cq" yq ns in
  let W := adv "W" Cq (ns * ns) in
  let D := adv "D" W (nall_max M) in
  let phi := adv "phi" D (nall_max M) in
  let fe := adv "fe" phi (nall_max M) in
  let narr := advi "narr" fe (nall_max M) in
  let na := nall d in
  let q := nq * (1 + nlset d) in
  let nd := nlset d in
  {| own := [];
     accs :=
       trend_con Larr q nq (con d) ++ trend_lines Larr q nq nq (segs (con d) 0 (lines d)) ++
       [(narr, from 0 1); (narr, from 1 nd)] ++
       cov ++ [(fe, upto (con d))] ++
       semi_iter fe W D phi PCmat na narr (con d :: lines d) ipiv ++
       mul_MN PCmat Larr ybuf na q na ++ mul_TA Larr ybuf Cq q q na ++
       matvec_TA ybuf na q None yq ++ inv_ Cq q ipiv ++ mul_MN Cq yq ybuf q 1 q ++
       [(y, upto na)] ++ matvec_MN Larr na q ybuf y ++
       matvec PCmat (Some y) na ybuf ++ [(y, upto na); (ybuf, upto na)] |}.

Definition prob_line (M : maxima) (nq : N) (d : curves) : routine := prob_line_with (covar_P_array d) M nq d.
(** [prob_line_variability_mmap], mc_mmap.c:977-1106. *)
Definition prob_mmap (M : maxima) (nq : N) (d : curves) : routine := prob_line_with (covar_P_array_mmap d) M nq d.

(** [prob_line_variability4_vmap], mc_vmap.c:430-538: no continuum. *)
Definition prob_vmap (M : maxima) (nq : N) (d : curves) : routine :=
  let ns := ns_of M nq in
  let Larr := base "Larr" Bwork in
  let ybuf := adv "ybuf" Larr (nall_max M * ns) in
  let y := adv "y" ybuf (nall_max M * ns) in
  let yq := adv "yq" y (nall_max M) in
  let Cq := adv "Cq" yq ns in
  let narr := advi "narr" Cq (ns * ns) in
  let na := nall d in
  let q := nq * nlset d in
  let nd := nlset d - 1 in
  {| own := [];
     accs :=
       trend_lines Larr q nq 0 (segs 0 0 (lines d)) ++
       [(narr, from 0 1); (narr, from 1 nd)] ++
       covar_P_array_vmap d ++
       part_iter PCmat na narr (lines d) ipiv ++
       mul_MN PCmat Larr ybuf na q na ++ mul_TA Larr ybuf Cq q q na ++
       matvec_TA ybuf na q None yq ++ inv_ Cq q ipiv ++ mul_MN Cq yq ybuf q 1 q ++
       [(y, upto na)] ++ matvec_MN Larr na q ybuf y ++
       matvec PCmat (Some y) na ybuf ++ [(y, upto na); (ybuf, upto na)] |}.

(** Points of each reconstructed curve: [fmin(con.n*nscale, nd_rec)]
    (mc_line.c:308-310, mc_mmap.c:371-373, line_decomp.c:136-138). *)
Definition rec_points (nd_rec : N) (d : curves) : N := N.min (con d * nscale) nd_rec.
Definition rec_sizes (nd_rec : N) (d : curves) : list N :=
  repeat (rec_points nd_rec d) (1 + List.length (lines d)).
(** The largest over the lines in the virtual mode, mc_vmap.c:747-755. *)
Definition rec_points_vmap (nd_rec : N) (d : curves) : N :=
  fold_left (fun x n => N.max x (N.min (n * nscale) nd_rec)) (lines d) 0.
Definition rec_sizes_vmap (nd_rec : N) (d : curves) : list N :=
  repeat (rec_points_vmap nd_rec d) (1 + List.length (lines d)).

(** [reconstruct_line_from_varmodel3], mc_line.c:1692-1855 (and
    mc_mmap.c:650-812). *)
Definition rec_line_with (cov : list access) (M : maxima) (nq nd_rec : N) (d : curves) : routine :=
  let rs := rec_sizes nd_rec d in
  let nt := sumN rs in
  let q := nq * (1 + nlset d) in
  let nd := nall d in
  let Larr := base "Larr" Bwork in
  let ybuf := adv "ybuf" Larr (nd * q) in
  let y := adv "y" ybuf (nd * q) in
  let Cq := adv "Cq" y nd in
  let yq := adv "yq" Cq (q * q) in
  let yuq := adv "yuq" yq q in
  let Larr_rec := adv "Larr_rec" yuq nt in
  let W := adv "W" Larr_rec (nt * q) in
  let D := adv "D" W nd in
  let phi := adv "phi" D nd in
  let fe := adv "fe" phi nd in
  let narr := advi "narr" fe (con d) in
  {| own := [(Bpe1, nt * nd); (Bpe2, nt * nt); (Bfall, nt); (Bfeall, nt)];
     accs :=
       cov ++ covar_U_line nd rs (con d :: lines d) ++ covar_A_line rs ++
       trend_con Larr q nq (con d) ++ trend_lines Larr q nq nq (segs (con d) 0 (lines d)) ++
       [(narr, from 0 1); (narr, from 1 (nlset d))] ++ [(fe, upto (con d))] ++
       semi_iter fe W D phi PCmat nd narr (con d :: lines d) ipiv ++
       mul_MN PCmat Larr ybuf nd q nd ++ mul_TA Larr ybuf Cq q q nd ++
       matvec_TA ybuf nd q None yuq ++ inv_ Cq q ipiv ++ mul_MN Cq yuq yq q 1 q ++
       [(yqall, upto q); (yq, upto q)] ++
       [(y, upto nd)] ++ matvec_MN Larr nd q yq y ++
       mul_MN USmat PCmat PEmat1 nt nd nd ++ matvec_MN PEmat1 nt nd y fall ++
       trend_con Larr_rec q nq (rec_points nd_rec d) ++
       trend_lines Larr_rec q nq nq (segs (rec_points nd_rec d) 0 (List.tl rs)) ++
       matvec_MN Larr_rec nt q yq fall ++
       mul_TB PEmat1 USmat PEmat2 nt nt nd ++ mul_MN PEmat1 Larr Larr_rec nt q nd ++
       mul_MN Larr_rec Cq PEmat1 nt q q ++ mul_TB PEmat1 Larr_rec PEmat2 nt nt q ++
       [(feall, upto nt); (ASmat, box nt 0 nt 0 nt); (PEmat2, box nt 0 nt 0 nt)] |}.

Definition rec_line (M : maxima) (nq nd_rec : N) (d : curves) : routine :=
  rec_line_with (covar_P_line (nall d) (con d :: lines d)) M nq nd_rec d.
Definition rec_mmap (M : maxima) (nq nd_rec : N) (d : curves) : routine :=
  rec_line_with (covar_P_array_mmap d) M nq nd_rec d.

(** [reconstruct_line_from_varmodel_single] of the decomposition,
    line_decomp.c:664-850 (and line_decomp_mmap.c:380-570), and
    [reconstruct_line_from_varmodel_vmap], mc_vmap.c:1382-1540, share their
    layout; [c0] is the first column of the lines' trends, [dl] the curves with
    data, [q] the number of coefficients, [o] the place of the first of them in
    [yqall].  The factors of the components ([fq_all], line_decomp.c:704-717)
    are left out. *)
Definition rec_dense (cov tr : list access) (M : maxima) (nq q o : N) (rs dl : list N) (nd : N)
    (trec : ptr -> list access) (tail : ptr -> ptr -> ptr -> N -> list access) : routine :=
  let nt := sumN rs in
  let Larr := base "Larr" Bwork in
  let ybuf := adv "ybuf" Larr (nd * q) in
  let y := adv "y" ybuf (nd * q) in
  let Cq := adv "Cq" y nd in
  let yq := adv "yq" Cq (q * q) in
  let yave := adv "yave" yq q in
  let yuq := adv "yuq" yave nd in
  let Larr_rec := adv "Larr_rec" yuq nt in
  let ntm := if nall_max M <? nt then nt else nall_max M in
  {| own := [(Bpe1, ntm * ntm); (Bpe2, ntm * ntm); (Bpe3, ntm * ntm); (Bpe4, ntm * ntm); (Bfall, nt); (Bfeall, nt)];
     accs :=
       cov ++ covar_U_line nd rs dl ++ covar_A_line rs ++ tr ++
       [(PEmat1, upto (nd * nd)); (PCmat, upto (nd * nd)); (PEmat2, upto (nd * q)); (Larr, upto (nd * q))] ++
       mul_invA PEmat1 PEmat2 nd q ipiv ++
       mul_TA Larr PEmat2 Cq q q nd ++ [(PEmat2, mat nd q); (yq, upto q)] ++
       [(PEmat1, upto (q * q)); (Cq, upto (q * q))] ++ mul_invA PEmat1 yq q 1 ipiv ++
       [(yqall, from o q); (yq, upto q)] ++
       mul_MN Larr yq yave nd 1 q ++ [(y, upto nd); (yave, upto nd)] ++
       [(PEmat1, upto (nd * nd)); (PCmat, upto (nd * nd)); (PEmat2, upto nd); (y, upto nd)] ++
       mul_invA PEmat1 PEmat2 nd 1 ipiv ++ matvec_MN USmat nt nd PEmat2 fall ++
       trec Larr_rec ++ matvec_MN Larr_rec nt q yq yuq ++ [(fall, upto nt); (yuq, upto nt)] ++
       [(USmatT, box nt 0 nd 0 nt); (USmat, box nd 0 nt 0 nd)] ++
       [(PEmat1, upto (nd * nd)); (PCmat, upto (nd * nd)); (PEmat2, upto (nt * nd)); (USmatT, upto (nt * nd))] ++
       mul_invA PEmat1 PEmat2 nd nt ipiv ++ mul_MN USmat PEmat2 PEmat1 nt nt nd ++
       tail Larr Larr_rec Cq nt |}.

Definition rec_single_with (cov : list access) (M : maxima) (nq nd_rec : N) (d : curves) : routine :=
  let rs := rec_sizes nd_rec d in
  let q := nq * (1 + nlset d) in
  let Larr := base "Larr" Bwork in
  rec_dense cov (trend_con Larr q nq (con d) ++ trend_lines Larr q nq nq (segs (con d) 0 (lines d)))
    M nq q 0 rs (con d :: lines d) (nall d)
    (fun Larr_rec => trend_con Larr_rec q nq (rec_points nd_rec d) ++
       trend_lines Larr_rec q nq nq (segs (rec_points nd_rec d) 0 (List.tl rs)))
    (fun _ _ _ nt => [(feall, upto nt); (ASmat, box nt 0 nt 0 nt); (PEmat1, box nt 0 nt 0 nt)]).

Definition rec_single (M : maxima) (nq nd_rec : N) (d : curves) : routine :=
  rec_single_with (covar_P_line (nall d) (con d :: lines d)) M nq nd_rec d.
Definition rec_single_mmap (M : maxima) (nq nd_rec : N) (d : curves) : routine :=
  rec_single_with (covar_P_array_mmap d) M nq nd_rec d.

Definition rec_vmap (M : maxima) (nq nd_rec : N) (d : curves) : routine :=
  let rs := rec_sizes_vmap nd_rec d in
  let q := nq * nlset d in
  let nd := nall d in
  let Larr := base "Larr" Bwork in
  rec_dense (covar_P_line nd (lines d)) (trend_lines Larr q nq 0 (segs 0 0 (lines d)))
    M nq q nq rs (lines d) nd
    (fun Larr_rec =>
       [(Larr_rec, box q 0 (rec_points_vmap nd_rec d) 0 q)] ++
       [(Larr_rec, box q 0 (rec_points_vmap nd_rec d) 0 1)] ++
       trend_lines Larr_rec q nq 0 (segs (rec_points_vmap nd_rec d) 0 (List.tl rs)))
    (fun Larr Larr_rec Cq nt =>
       mul_TA PEmat2 Larr PEmat3 nt q nd ++ [(PEmat3, upto (nt * q)); (Larr_rec, upto (nt * q))] ++
       inv_ Cq q ipiv ++ mul_MN PEmat3 Cq PEmat2 nt q q ++ mul_TB PEmat2 PEmat3 PEmat4 nt nt q ++
       [(feall, upto nt); (ASmat, box nt 0 nt 0 nt); (PEmat1, box nt 0 nt 0 nt); (PEmat4, box nt 0 nt 0 nt)]).
