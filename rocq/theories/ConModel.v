(** The continuum mode: the likelihood over all data sets, its dense variant, and what
    mc_con writes.  Real numbers, no rounding. *)
From Coq Require Import Reals List Arith ZArith.
From Verif Require Import CPrelude SemisepModel SemisepProofs PartModel LikeModel PredModel SmallModel ParamModel.
From Verif Require RecModel.
Import ListNotations.
Open Scope R_scope.

(** dataset[i].con, src/allvars.h: n, t, f, fe, error_mean, scale *)
Record cset := CSet { c_n : nat; c_t : arr; c_f : arr; c_fe : arr; c_em : R; c_scale : R }.
(** what a set finds in the work arrays: Larr, W, D, phi, ybuf, Larr_rec, PEmat1, PEmat2,
    fcon, and PCmat *)
Record con_found := ConFound { k_L : arr; k_W : arr; k_D : arr; k_phi : arr; k_Z : arr; k_Lr : arr; k_PE1 : arr; k_PE2 : arr; k_f : arr; k_PC : arr }.

(** set_covar_Pmat_data, src/mc_con.c:689-714, with alpha = 1 (src/mc_con.c:507); PSmat
    and PNmat, also written there, are used nowhere else in these functions *)
Definition set_covar_Pmat_data (sigma tau syserr : R) (n : nat) (t fe : arr) (C0 : arr) : arr :=
  for_ 0 n (fun i C =>
    let C := for_ 0 i (fun j C =>
      let v := exp (- (Rabs (t i - t j) / tau)) in
      upd (upd C (j * n + i) v) (i * n + j) v) C in
    upd C (i * n + i) (1 + (fe i * fe i + syserr * syserr) / (sigma * sigma))) C0.

Section Lu.
(** LAPACKE_dgetrf: factors, ipiv (counted from 1), and whether the code is not zero;
    LAPACKE_dgetri *)
Variable dgetrf : nat -> arr -> arr * (nat -> nat) * bool.
Variable dgetri : nat -> arr -> (nat -> nat) -> arr * bool.
(** inverse_mat, src/mathfun.c:132-150; error_exit ends the program *)
Definition inverse_mat (a : arr) (n : nat) : outcome arr :=
  let '(f, ip, bad) := dgetrf n a in
  if bad then Exit else
  let '(g, bad) := dgetri n f ip in
  if bad then Exit else Ok g.
(** one step of the sign, src/mathfun.c:414-421 *)
Definition sign_step (f : arr) (ip : nat -> nat) (n i : nat) (sg : Z) : Z :=
  let sg := (sg * (if Rle_dec 0 (f (i * n + i)%nat) then 1 else -1))%Z in
  if Nat.eqb (ip i) (i + 1) then sg else (sg * -1)%Z.
(** lndet_mat3, src/mathfun.c:397-425 *)
Definition lndet_mat3 (a : arr) (n : nat) : outcome (R * Z) :=
  let '(f, ip, bad) := dgetrf n a in
  if bad then Exit else
  Ok (for_ 0 n (fun i s => let '(l, sg) := s in (l + ln (Rabs (f (i * n + i)%nat)), sign_step f ip n i sg)) (0, 1%Z)).
(** lndet_mat, src/mathfun.c:341-359 *)
Definition lndet_mat (a : arr) (n : nat) : outcome R :=
  let '(f, ip, bad) := dgetrf n a in
  if bad then Exit else Ok (for_ 0 n (fun i l => l + ln (Rabs (f (i * n + i)%nat))) 0).
(** det_mat, src/mathfun.c:314-338 *)
Definition det_mat (a : arr) (n : nat) : outcome R :=
  let '(f, ip, bad) := dgetrf n a in
  if bad then Exit else
  Ok (for_ 0 n (fun i d => let d := d * f (i * n + i)%nat in if Nat.eqb (ip i) (i + 1) then d else - d) 1).
(** lndet_mat2, src/mathfun.c:365-393.  The loop over the signs stops at the first -1;
    [sg0] is what *sign holds before (it stays for n = 0) *)
Fixpoint sign_loop (f : arr) (ip : nat -> nat) (n i k : nat) (sg0 : Z) : Z :=
  match k with
  | O => sg0
  | S k => let sg := sign_step f ip n i 1 in if Z.eqb sg (-1) then sg else sign_loop f ip n (S i) k sg
  end.
Definition lndet_mat2 (a : arr) (n : nat) (sg0 : Z) : outcome (R * Z) :=
  let '(f, ip, bad) := dgetrf n a in
  if bad then Exit else
  Ok (for_ 0 n (fun i l => l + ln (Rabs (f (i * n + i)%nat))) 0, sign_loop f ip n 0 n sg0).

(** prob_con_variability, src/mc_con.c:476-567, one data set; [None] is the return of
    -DBL_MAX *)
Definition dense_con_set (nq n : nat) (t f fe : arr) (error_mean p0 p1 p2 : R) (L0 PC0 : arr) : outcome (option R) :=
  let syserr := (exp p0 - 1) * error_mean in
  let tau := exp p2 in
  let sigma := exp p1 * sqrt tau in
  let Larr := con_trend nq n t L0 in
  let PC := set_covar_Pmat_data sigma tau syserr n t fe PC0 in
  IPC <- inverse_mat PC n ;;
  let ybuf := mul_MN IPC Larr n nq n in
  let Cq := mul_tA Larr ybuf nq nq n in
  let ICq := Cq in
  let ybuf := matvec IPC n f in
  let yq := mul_tA Larr ybuf nq 1 n in
  Cq <- inverse_mat Cq nq ;;
  let q := mul_MN Cq yq nq 1 nq in
  let y := fun i => f i - matvec_MN Larr n nq q i in
  let ybuf := matvec IPC n y in
  let prob := - (1 / 2) * ddot n y ybuf / (sigma * sigma) in
  ld <- lndet_mat3 PC n ;;
  let lndet := fst ld + 2 * INR n * ln sigma in
  if Z.eqb (snd ld) (-1) then Ok None else
  lq <- lndet_mat3 ICq nq ;;
  let lndet_ICq := fst lq - 2 * INR nq * ln sigma in
  if Z.eqb (snd lq) (-1) then Ok None else
  Ok (Some (prob + (- (1 / 2) * lndet - 1 / 2 * lndet_ICq))).

(** recostruct_con_from_varmodel, src/mc_con.c:182-277 *)
Definition dense_rec_con (nq n : nat) (t f fe : arr) (sigma tau syserr : R) (T : nat) (tall : arr) (L0 Lr0 PC0 : arr) : outcome rec_out :=
  let PC := set_covar_Pmat_data sigma tau syserr n t fe PC0 in
  let US := con_Umat tau n t T tall in
  PC <- inverse_mat PC n ;;
  let Larr := con_trend nq n t L0 in
  let ybuf := mul_MN PC Larr n nq n in
  let Cq := mul_tA Larr ybuf nq nq n in
  let ybuf := matvec PC n f in
  let yuq := mul_tA Larr ybuf nq 1 n in
  Cq <- inverse_mat Cq nq ;;
  let yq := mul_MN Cq yuq nq 1 nq in
  let ybuf := matvec_MN Larr n nq yq in
  let y := fun i => f i - ybuf i in
  let ybuf := matvec PC n y in
  let fcon := matvec_MN US T n ybuf in
  let Lrec := con_trend nq T tall Lr0 in
  let yuq := matvec_MN Lrec T nq yq in
  let fcon := fun i => fcon i + yuq i in
  let PE1 := mul_MN US PC T n n in
  let PE2 := mul_tB PE1 US T T n in
  let PE3 := mul_MN PE1 Larr T nq n in
  let PE3 := fun i => PE3 i - Lrec i in
  let PE1 := mul_MN PE3 Cq T nq nq in
  let PE4 := mul_tB PE1 PE3 T T nq in
  Ok (RecOut fcon (fun i => sigma * sqrt (1 - PE2 (i * T + i)%nat + PE4 (i * T + i)%nat)) yq).
End Lu.

Section Con.
Context {IP : Type}.
Variable dsytrf : nat -> (nat -> nat -> R) -> (nat -> nat -> R) * IP.
Variable dsytri : nat -> (nat -> nat -> R) -> IP -> nat -> nat -> R.
Variable dgetrf : nat -> arr -> arr * (nat -> nat) * bool.
Variable dgetri : nat -> arr -> (nat -> nat) -> arr * bool.
Variable nset : nat.
Variable ds : nat -> cset.
Variable uniform_var : bool.
Variable nq : nat.
Variable fd : nat -> con_found.

(** prob_con_variability_semiseparable, src/mc_con.c:569-640: the sum over the sets, with
    idx_con_pm of src/init.c:319-330 *)
Definition prob_con_variability_semiseparable (pm : arr) : R :=
  for_ 0 nset (fun k prob =>
    let d := ds k in let f := fd k in let idx := idx_con_pm uniform_var k in
    prob + prob_con_set dsytrf dsytri nq (c_n d) (c_t d) (c_f d) (c_fe d) (c_em d) (pm idx) (pm (idx + 1)%nat) (pm (idx + 2)%nat)
      (k_L f) (k_W f) (k_D f) (k_phi f) (k_Z f)) 0.
(** prob_con_variability, src/mc_con.c:476-567 *)
Fixpoint dense_sets (pm : arr) (l : list nat) (prob : R) : outcome (option R) :=
  match l with
  | [] => Ok (Some prob)
  | k :: l =>
      let d := ds k in let f := fd k in let idx := idx_con_pm uniform_var k in
      p <- dense_con_set dgetrf dgetri nq (c_n d) (c_t d) (c_f d) (c_fe d) (c_em d) (pm idx) (pm (idx + 1)%nat) (pm (idx + 2)%nat) (k_L f) (k_PC f) ;;
      match p with None => Ok None | Some p => dense_sets pm l (prob + p) end
  end.
Definition prob_con_variability (pm : arr) : outcome (option R) := dense_sets pm (seq 0 nset) 0.

(** postprocess_con, src/mc_con.c:373-470, after the sample file has been read: [P] is
    posterior_sample, num_ps rows of num_params = num_params_var numbers
    (src/dnest_con.c:27).  best_model_con on the root task, and var_param, var_param_std on
    every task after the two broadcasts *)
Definition postprocess_con (num_ps : nat) (P pm0 ps0 : arr) (tasks : nat -> arr * arr) : arr * (nat -> arr * arr) :=
  let nv := num_params_var nset uniform_var in
  let '(pm, ps) := post_mean_std num_ps nv P pm0 ps0 in
  let root := (for_ 0 nv (fun j a => upd a j (pm j)) (fst (tasks 0%nat)), for_ 0 nv (fun j a => upd a j (ps j)) (snd (tasks 0%nat))) in
  (pm, fun r => if Nat.eqb r 0 then root else
     (for_ 0 nv (fun j a => upd a j (fst root j)) (fst (tasks r)), for_ 0 nv (fun j a => upd a j (snd root j)) (snd (tasks r)))).

(** parset.trec_low_ext, trec_upp_ext *)
Variables low_ext upp_ext : R.
(** src/mc_con.c:124-128; nscale = 3 (src/init.c:135).  tcon_data[ncon_data-1] is outside
    the array for an empty curve *)
Definition con_grid (i : nat) : outcome (nat * arr) :=
  let d := ds i in
  let ncon := (c_n d * 3)%nat in
  if Nat.eqb (c_n d) 0 then UB else
  let tspan := c_t d (c_n d - 1)%nat - c_t d 0%nat + (upp_ext - low_ext) in
  Ok (ncon, fun j => (tspan + 1 / 10 * tspan) / (INR ncon - 1) * INR j + (c_t d 0%nat - 5 / 100 * tspan + low_ext)).
(** src/mc_con.c:109-145, one set: the lines of pcon.txt and of trend_con.txt before they
    are formatted.  [dget] is inverse_mat as in PredModel.v *)
Variable dget : nat -> arr -> arr.
Definition con_output (pm : arr) (i : nat) : outcome (list (R * (R * R)) * list R) :=
  let d := ds i in let f := fd i in let idx := idx_con_pm uniform_var i in
  let syserr := (exp (pm idx) - 1) * c_em d in
  let tau := exp (pm (idx + 2)%nat) in
  let sigma := exp (pm (idx + 1)%nat) * sqrt tau in
  g <- con_grid i ;;
  let '(ncon, tcon) := g in
  let o := rec_con_set dget nq (c_n d) (c_t d) (c_f d) (c_fe d) sigma tau syserr ncon tcon
    (k_L f) (k_W f) (k_D f) (k_phi f) (k_Z f) (k_Lr f) (k_PE1 f) (k_PE2 f) (k_f f) in
  Ok (map (fun j => (tcon j, (rec_f o j * c_scale d, rec_fe o j * c_scale d))) (seq 0 ncon),
      map (fun j => rec_yq o j * c_scale d) (seq 0 nq)).
(** mc_con, src/mc_con.c:24-180, from the sample to the two files: postprocess_con, then
    the sets one after the other *)
Definition mc_con_files (num_ps : nat) (P pm0 ps0 : arr) (tasks : nat -> arr * arr) : outcome (list (list (R * (R * R)) * list R)) :=
  RecModel.sequence (map (con_output (fst (postprocess_con num_ps P pm0 ps0 tasks))) (seq 0 nset)).
End Con.
