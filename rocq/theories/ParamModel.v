(** The parameter vector: its layout, prior ranges, fixed parameters, drawing
    from the prior and perturbing.  src/dnest_line.c, src/dnest_con.c,
    src/dnest_pmap.c, src/dnest_vmap.c, src/dnest_mmap.c and parts of src/init.c.
    Values are real numbers; arrays are total functions, except that an entry of
    idx_line_pm is [None] until written and that accesses to the parameter vector
    made by the perturbations are checked. *)
From Coq Require Import Reals ZArith List Bool Arith.
From Verif Require Import CPrelude SemisepModel SortModel LogXModel.
Import ListNotations.
Open Scope R_scope.

(** for(i=0; i<n; i+=step): the k-th iteration has i = k*step. *)
Definition iters (n step : nat) : nat := ((n + step - 1) / step)%nat.
(** A loop whose body may stop the program. *)
Definition ofor {St} (lo n : nat) (body : nat -> St -> outcome St) (s : St) : outcome St :=
  foldM (fun s i => body i s) (seq lo n) s.

Section Layout.
(** nset, dataset[i].nlset, num_gaussian, flag_uniform_tranfuns,
    flag_uniform_var_params == 1 *)
Variable nset : nat.
Variable nlset : nat -> nat.
Variable ng : nat.
Variable uniform : nat.
Variable uniform_var : bool.

(** src/read.c:934-946 *)
Definition nlset_max : nat := for_ 0 nset (fun i m => if (m <? nlset i)%nat then nlset i else m) 0%nat.
(** src/init.c:34-41 *)
Definition num_params_var : nat := if uniform_var then 3 else (3 * nset)%nat.
(** src/init.c:315-325 *)
Definition idx_con_pm (i : nat) : nat := if uniform_var then 0 else (3 * i)%nat.
(** parameters of one line *)
Definition per_line : nat := (1 + 3 * ng)%nat.
(** src/dnest_line.c:48-62 (the same in dnest_pmap.c:45-59, dnest_vmap.c:48-62 and
    dnest_mmap.c:50-64) *)
Definition num_params_line : nat :=
  if (uniform =? 1)%nat then (per_line * nlset_max)%nat
  else for_ 0 nset (fun i n => (n + per_line * nlset i)%nat) 0%nat.
Definition num_params : nat := (num_params_var + num_params_line)%nat.

(** idx_line_pm, allocated in mc_line_init without being initialised *)
Definition idxtab := nat -> nat -> option nat.
Definition put2 (m : idxtab) (i j : nat) (v : nat) : idxtab :=
  fun a b => if ((a =? i) && (b =? j))%nat then Some v else m a b.
(** set_idx_line_pm, src/dnest_line.c:230-258 *)
Definition set_idx_line_pm (m : idxtab) : idxtab :=
  if (uniform =? 1)%nat then
    for_ 0 nset (fun i m => for_ 0 (nlset i) (fun j m => put2 m i j (per_line * j + num_params_var)%nat) m) m
  else
    snd (for_ 0 nset (fun i x => for_ 0 (nlset i) (fun j x =>
      let '(np, m) := x in (S np, put2 m i j (per_line * np + num_params_var)%nat)) x) (0%nat, m)).
Definition unset : idxtab := fun _ _ => None.
Definition read_idx (m : idxtab) (i j : nat) : outcome nat := match m i j with Some v => Ok v | None => UB end.

(** check_gauss_center, src/dnest_line.c:708-727: whether a centre is meant, and of
    which component; C's % and / truncate. *)
Definition check_gauss_center (which : nat) : bool * Z :=
  let iwhich := (Z.of_nat which - Z.of_nat num_params_var)%Z in
  let r := (Z.rem iwhich (Z.of_nat per_line) - 1)%Z in
  ((Z.rem r 3 =? 1)%Z, Z.quot r 3).
(** get_idx_param, src/proto.h:297 *)
Definition get_idx_param (which : nat) : Z :=
  Z.rem (Z.rem (Z.of_nat which - Z.of_nat num_params_var) (Z.of_nat per_line) - 1) 3.
(** get_idx_set, src/dnest_line.c:261-272 *)
Fixpoint get_idx_set_from (m : idxtab) (n : nat) (which : nat) : outcome nat :=
  match n with
  | O => Ok 0%nat
  | S i => v <- read_idx m i 0 ;; if (v <=? which)%nat then Ok i else get_idx_set_from m i which
  end.
Definition get_idx_set (m : idxtab) (which : nat) : outcome nat := get_idx_set_from m nset which.

(** ** Ranges *)
Record ranges := Ranges { lo : arr; hi : arr }.
(** par_range_model[i][0] = a; par_range_model[i][1] = b; i++ *)
Definition push (ab : R * R) (x : nat * ranges) : nat * ranges :=
  let '(i, r) := x in (S i, Ranges (upd (lo r) i (fst ab)) (upd (hi r) i (snd ab))).
(** The loops common to set_par_range_line, src/dnest_line.c:297-384,
    set_par_range_pmap, src/dnest_pmap.c:140-206, and set_par_range_vmap,
    src/dnest_vmap.c:148-231: three intervals per group of variability parameters,
    one and three per component for every line; line number m has j = m*per_line. *)
Definition set_ranges (var : nat -> nat -> R * R) (sys : R * R) (amp : nat -> nat -> R * R) (lag width : nat -> R * R) (r : ranges) : ranges :=
  let x := for_ 0 (iters num_params_var 3) (fun m x =>
    let j := (m * 3)%nat in push (var j 2%nat) (push (var j 1%nat) (push (var j 0%nat) x))) (0%nat, r) in
  snd (for_ 0 (iters num_params_line per_line) (fun m x =>
    let x := push sys x in
    for_ 0 ng (fun k x => push (width k) (push (lag k) (push (amp m k) x))) x) x).
Section SetRanges.
Variables var_param var_param_std : arr.
Variables var_range line_range : nat -> R * R.
Variables type_lag_prior type_lag_prior_pr : nat.
(** lag_prior[2k], lag_prior[2k+1]; width_prior and resp_ratio_prior likewise;
    [given] is strlen(str_width_prior) > 0 *)
Variables lag_prior width_prior resp_ratio_prior : nat -> R * R.
Variable given : bool.

(** src/dnest_line.c:303-329: five standard deviations about the result of the
    continuum fit, cut to the allowed range *)
Definition var_interval (j k : nat) : R * R :=
  (Rmax (var_param (j + k)%nat - 5 * var_param_std (j + k)%nat) (fst (var_range k)),
   Rmin (var_param (j + k)%nat + 5 * var_param_std (j + k)%nat) (snd (var_range k))).
(** 345-359 *)
Definition lag_interval (k : nat) : R * R :=
  if (type_lag_prior =? 4)%nat then lag_prior k
  else if (type_lag_prior_pr =? 0)%nat then line_range 2
  else let '(a, b) := line_range 2 in (a + INR k * (b - a) / INR ng, a + INR (k + 1) * (b - a) / INR ng).
(** 361-379 *)
Definition width_interval (k : nat) : R * R :=
  if given then width_prior k
  else if (type_lag_prior =? 3)%nat && (1 <? ng)%nat then
    let '(a, b) := line_range 2 in (ln ((b - a) / INR (ng - 1) / 2), ln ((b - a) / INR (ng - 1)))
  else line_range 3.
(** set_par_range_line, src/dnest_line.c:297-384 (also used by dnest_mmap) *)
Definition set_par_range_line : ranges -> ranges :=
  set_ranges var_interval (line_range 0) (fun _ _ => line_range 1) lag_interval width_interval.
(** set_par_range_pmap, src/dnest_pmap.c:140-206 *)
Definition set_par_range_pmap : ranges -> ranges :=
  set_ranges var_interval (line_range 0)
    (fun _ k => if (k =? 0)%nat then line_range 1 else resp_ratio_prior (k - 1)%nat) lag_prior width_prior.
(** set_par_range_vmap, src/dnest_vmap.c:148-231 *)
Definition set_par_range_vmap : ranges -> ranges :=
  set_ranges (fun _ k => var_range k) (line_range 0)
    (fun m k => if ((k =? 0) && (m =? 0))%nat then (ln 0.1, snd (line_range 1)) else line_range 1) lag_interval width_interval.
(** set_par_range_con, src/dnest_con.c:84-105 *)
Definition set_par_range_con (r : ranges) : ranges :=
  snd (for_ 0 (iters num_params_var 3) (fun m x => push (var_range 2%nat) (push (var_range 1%nat) (push (var_range 0%nat) x))) (0%nat, r)).
End SetRanges.

(** ** Fixed parameters *)
Record fixed := Fixed { is_fixed : nat -> bool; fix_val : arr }.
Definition fix_at (i : nat) (v : R) (f : fixed) : fixed :=
  Fixed (fun k => if (k =? i)%nat then true else is_fixed f k) (upd (fix_val f) i v).
Section SetFixed.
Variables flag_con_sys_err flag_line_sys_err : bool.
Variables type_lag_prior type_tf : nat.
Variables lag_limit_low lag_limit_upper : R.
(** DBL_MAX *)
Definition DBLMAX : R := (2 - / 2 ^ 52) * 2 ^ 1023.
Definition dlag : R := (lag_limit_upper - lag_limit_low) / INR (ng - 1).
(** dnest_line, src/dnest_line.c:75-80 *)
Definition none_fixed : fixed := Fixed (fun _ => false) (fun _ => - DBLMAX).
(** 82-90 *)
Definition fix_con (f : fixed) : fixed :=
  if flag_con_sys_err then f else for_ 0 (iters num_params_var 3) (fun m f => fix_at (m * 3) (ln 1) f) f.
(** 92-100 *)
Definition fix_line (f : fixed) : fixed :=
  if flag_line_sys_err then f
  else for_ 0 (iters num_params_line per_line) (fun m f => fix_at (m * per_line + num_params_var) (ln 1) f) f.
(** the loops at 105-121 and 139-156, writing ic+off: [val i] for component i *)
Definition fix_each (off : nat) (val : nat -> R) (f : fixed) : fixed :=
  if (uniform =? 1)%nat then
    for_ 0 nlset_max (fun j f => for_ 0 ng (fun i f =>
      fix_at (num_params_var + j * per_line + 1 + i * 3 + off) (val i) f) f) f
  else
    snd (for_ 0 nset (fun j x => for_ 0 (nlset j) (fun k x =>
      let '(ic, f) := x in let ic := (ic + 1)%nat in
      for_ 0 ng (fun i x => let '(ic, f) := x in ((ic + 3)%nat, fix_at (ic + off) (val i) f)) (ic, f)) x) (num_params_var, f)).
(** 102-133 *)
Definition fix_lags (f : fixed) : fixed :=
  if (2 <=? type_lag_prior)%nat && (type_lag_prior <=? 3)%nat then fix_each 1 (fun i => lag_limit_low + INR i * dlag) f else f.
(** 135-168 *)
Definition fix_widths (f : fixed) : fixed :=
  if (type_tf =? 1)%nat && (type_lag_prior =? 3)%nat then fix_each 2 (fun _ => ln (dlag / 2)) f else f.
(** 170-189; 99.9 is a placeholder, see set_center_width *)
Definition fix_tied (m : idxtab) (f : fixed) : outcome fixed :=
  if (uniform =? 2)%nat then
    ofor 1 (nset - 1) (fun i f => ofor 0 (nlset i) (fun j f =>
      idx <- read_idx m i j ;;
      Ok (for_ 0 ng (fun k f => fix_at (idx + 1 + k * 3 + 2) 99.9 (fix_at (idx + 1 + k * 3 + 1) 99.9 f)) f)) f) f
  else Ok f.
(** dnest_line, src/dnest_line.c:75-189 *)
Definition set_fixed_line (m : idxtab) : outcome fixed :=
  fix_tied m (fix_widths (fix_lags (fix_line (fix_con none_fixed)))).
(** dnest_mmap, src/dnest_mmap.c:76-157: no fixed widths *)
Definition set_fixed_mmap (m : idxtab) : outcome fixed :=
  fix_tied m (fix_lags (fix_line (fix_con none_fixed))).
(** dnest_pmap, src/dnest_pmap.c:75-101 *)
Definition set_fixed_pmap : fixed := fix_line (fix_con none_fixed).
(** dnest_vmap, src/dnest_vmap.c:74-111: sigma, the first centre of each set's first
    line, the systematic error of the continuum (always), and of the line *)
Definition set_fixed_vmap (m : idxtab) : outcome fixed :=
  let f := for_ 0 (iters (num_params_var - 1) 3) (fun k f => fix_at (1 + k * 3) (ln 0.1) f) none_fixed in
  f <- ofor 0 nset (fun i f => idx <- read_idx m i 0 ;; Ok (fix_at (idx + 2) 0 f)) f ;;
  let f := for_ 0 (iters num_params_var 3) (fun k f => fix_at (k * 3) (ln 1) f) f in
  Ok (fix_line f).
(** dnest_con, src/dnest_con.c:51-64: only the systematic errors *)
Definition set_fixed_con (val0 : arr) : fixed := fix_con (Fixed (fun _ => false) val0).
End SetFixed.

(** set_center_width, src/dnest_line.c:275-295 *)
Definition set_center_width (m : idxtab) (pm : arr) : outcome arr :=
  ofor 1 (nset - 1) (fun i pm => ofor 0 (nlset i) (fun j pm =>
    idx0 <- read_idx m 0 j ;;
    idx <- read_idx m i j ;;
    Ok (for_ 0 ng (fun k pm =>
      let pm := upd pm (idx + 1 + k * 3 + 1) (pm (idx0 + 1 + k * 3 + 1)%nat) in
      upd pm (idx + 1 + k * 3 + 2) (pm (idx0 + 1 + k * 3 + 2)%nat)) pm)) pm) pm.

(** ** Drawing from the prior *)
Section Prior.
Variable rng : ranges.
Variable fx : fixed.
(** mica_cmp, src/dnest_line.c:830-833, on numbers *)
Definition mica_cmpR (a b : R) : Z := if Rle_dec b a then 1%Z else (-1)%Z.
(** range[i][0] + u*(range[i][1] - range[i][0]) *)
Definition uniform_in (i : nat) (u : R) : R := lo rng i + u * (hi rng i - lo rng i).

(** sort the centres of each line, 477-497 *)
Definition sort_centers (pm : arr) : arr :=
  for_ 0 (iters num_params_line per_line) (fun m pm =>
    let ic := (num_params_var + m * per_line + 1)%nat in
    let centers := msort mica_cmpR (map (fun j => pm (ic + j * 3 + 1)%nat) (seq 0 ng)) in
    for_ 0 ng (fun j pm => upd pm (ic + j * 3 + 1) (nth j centers 0)) pm) pm.
(** the while loop at 506-517.  U: the values returned by successive calls of
    dnest_rand, n the number of calls made so far; [remaining] is 101 - j. *)
Fixpoint redraw (U : nat -> R) (width_factor : R) (ic : nat) (remaining : nat) (x : nat * arr) : nat * arr :=
  match remaining with
  | O => x
  | S remaining =>
    let '(n, pm) := x in
    if Rlt_dec (pm (ic - 1)%nat - width_factor * pm ic) 0 then
      let pm := upd pm (ic - 1) (uniform_in (ic - 1) (U n)) in
      let pm := upd pm ic (uniform_in ic (U (n + 1)%nat)) in
      match remaining with
      | O => ((n + 2)%nat, upd pm ic (pm (ic - 1)%nat / width_factor))
      | _ => redraw U width_factor ic remaining ((n + 2)%nat, pm)
      end
    else x
  end.
(** constrain widths, 500-519 *)
Definition positivity (U : nat -> R) (width_factor : R) (x : nat * arr) : nat * arr :=
  for_ 0 (iters num_params_line per_line) (fun m x => redraw U width_factor (num_params_var + m * per_line + 2) 101 x) x.
(** 521-525 *)
Definition put_fixed (pm : arr) : arr :=
  for_ 0 num_params (fun i pm => if is_fixed fx i then upd pm i (fix_val fx i) else pm) pm.

(** from_prior_line, src/dnest_line.c:460-532; from_prior_vmap,
    src/dnest_vmap.c:299-366, from_prior_mmap, src/dnest_mmap.c:199-271 and
    from_prior_pmap, src/dnest_pmap.c:282-325 are the same text with [ties] false
    (vmap, pmap) and [sorts] false (pmap).  N, U: the values returned by
    successive calls of dnest_randn and dnest_rand. *)
Definition from_prior (sorts ties : bool) (type_lag_prior_pr : nat) (flag_lag_posivity : bool) (width_factor : R)
  (m : idxtab) (N U : nat -> R) (pm : arr) : outcome arr :=
  pm <- ofor 0 num_params_var (fun i pm =>
    v <- dnest_wrap (N i * (hi rng i - lo rng i)) (lo rng i) (hi rng i) ;; Ok (upd pm i v)) pm ;;
  let pm := for_ num_params_var num_params_line (fun i pm => upd pm i (uniform_in i (U (i - num_params_var)%nat))) pm in
  let pm := if sorts && (type_lag_prior_pr =? 0)%nat then sort_centers pm else pm in
  let pm := if flag_lag_posivity then snd (positivity U width_factor (num_params_line, pm)) else pm in
  let pm := put_fixed pm in
  if ties && (uniform =? 2)%nat then set_center_width m pm else Ok pm.
Definition from_prior_line := from_prior true true.
Definition from_prior_mmap := from_prior true true.
Definition from_prior_vmap := from_prior true false.
Definition from_prior_pmap := from_prior false false.
(** from_prior_con, src/dnest_con.c:107-123 *)
Definition from_prior_con (U : nat -> R) (pm : arr) : arr :=
  let pm := for_ 0 num_params_var (fun i pm => upd pm i (uniform_in i (U i))) pm in
  for_ 0 num_params_var (fun i pm => if is_fixed fx i then upd pm i (fix_val fx i) else pm) pm.

(** ** Perturbing *)
(** do which = dnest_rand_int(n) while(par_fix[which] == 1); W: the integers
    returned *)
Fixpoint choose_which (W : list nat) : outcome nat :=
  match W with
  | [] => Stuck
  | w :: r => if is_fixed fx w then choose_which r else Ok w
  end.
Variables var_param var_param_std : arr.
Definition rd (n : nat) (pm : arr) (i : nat) : outcome R := if (i <? n)%nat then Ok (pm i) else UB.
(** the step width: limits of the level if that is high enough, else the range;
    [wl] is which_level *)
Definition step_width (n : nat) (limits : arr) (wl : Z) (which : nat) : R :=
  if (0 <? wl)%Z then
    limits (Z.to_nat (wl - 1) * n * 2 + which * 2 + 1)%nat - limits (Z.to_nat (wl - 1) * n * 2 + which * 2)%nat
  else hi rng which - lo rng which.
Definition gauss_log (which : nat) (x : R) : R := - (1 / 2) * ((x - var_param which) / var_param_std which) ^ 2.

Section Penalties.
Variables flag_lag_posivity flag_gap : bool.
Variables width_factor lag_factor year_day : R.
Variables gap_center gap_width : arr.
Variable m : idxtab.
(** check_positivity, src/dnest_line.c:732-749 *)
Definition check_positivity (pm : arr) (which : nat) : outcome R :=
  let idx := get_idx_param which in
  if (idx =? 1)%Z then
    c <- rd num_params pm which ;; w <- rd num_params pm (which + 1) ;;
    Ok (if Rlt_dec (c - width_factor * exp w) 0 then - 100 else 0)
  else if (idx =? 2)%Z then
    c <- rd num_params pm (which - 1) ;; w <- rd num_params pm which ;;
    Ok (if Rlt_dec (c - width_factor * exp w) 0 then - 100 else 0)
  else Ok 0.
(** check_gap, src/dnest_line.c:754-789 *)
Definition gap_penalty (iset : nat) (c w : R) : R :=
  let lag := c + lag_factor * exp w in
  let gap := lag - floor (lag / year_day) * year_day in
  let dgap := Rabs (gap - gap_center iset) in
  if Rlt_dec dgap (gap_width iset) then
    if Rlt_dec w (ln (gap_width iset)) then - 100 * (1 - (dgap / gap_width iset) ^ 2) else 0
  else 0.
Definition check_gap (pm : arr) (which : nat) : outcome R :=
  let idx := get_idx_param which in
  iset <- get_idx_set m which ;;
  if (idx =? 1)%Z then
    c <- rd num_params pm which ;; w <- rd num_params pm (which + 1) ;; Ok (gap_penalty iset c w)
  else if (idx =? 2)%Z then
    c <- rd num_params pm (which - 1) ;; w <- rd num_params pm which ;; Ok (gap_penalty iset c w)
  else Ok 0.
Definition penalties (pm : arr) (which : nat) : outcome R :=
  a <- (if flag_lag_posivity then check_positivity pm which else Ok 0) ;;
  b <- (if flag_gap then check_gap pm which else Ok 0) ;;
  Ok (a + b).

(** perturb_line_prior0, src/dnest_line.c:570-645, and perturb_mmap_prior0,
    src/dnest_mmap.c:307-382, with [ties] true and [early] 0; perturb_vmap_prior0,
    src/dnest_vmap.c:402-472, with [ties] false and [early] 5.  [h] is the value
    returned by dnest_randh.  The result is the new vector and logH. *)
Definition perturb_prior0 (ties : bool) (early : Z) (W : list nat) (h : R) (limits : arr) (which_level_update size_levels : Z) (pm : arr) : outcome (arr * R) :=
  which <- choose_which W ;;
  let wl := if (size_levels - 10 - early <? which_level_update - early)%Z then (size_levels - 10 - early)%Z else (which_level_update - early)%Z in
  let width := step_width num_params limits wl which in
  x <- rd num_params pm which ;;
  r <- (if (which <? num_params_var)%nat then
          v <- dnest_wrap (x + h * width) (lo rng which) (hi rng which) ;;
          Ok (upd pm which v, gauss_log which v - gauss_log which x)
        else
          let '(is_centre, igau) := check_gauss_center which in
          v <- (if is_centre then
                  if (igau =? 0)%Z then
                    b <- rd num_params pm (which + 3) ;; dnest_wrap (x + h * width) (lo rng which) b
                  else if (igau <? Z.of_nat ng - 1)%Z then
                    a <- rd num_params pm (which - 3) ;; b <- rd num_params pm (which + 3) ;; dnest_wrap (x + h * width) a b
                  else a <- rd num_params pm (which - 3) ;; dnest_wrap (x + h * width) a (hi rng which)
                else dnest_wrap (x + h * width) (lo rng which) (hi rng which)) ;;
          let pm := upd pm which v in
          p <- penalties pm which ;;
          Ok (pm, p)) ;;
  let '(pm, logH) := r in
  pm <- (if ties && (uniform =? 2)%nat then set_center_width m pm else Ok pm) ;;
  Ok (pm, logH).
Definition perturb_line_prior0 := perturb_prior0 true 0.
Definition perturb_mmap_prior0 := perturb_prior0 true 0.
Definition perturb_vmap_prior0 := perturb_prior0 false 5.

(** perturb_line_prior1, src/dnest_line.c:648-705, and perturb_mmap_prior1,
    src/dnest_mmap.c:385-442, with [ties] true; perturb_pmap,
    src/dnest_pmap.c:363-415, and perturb_vmap_prior1, src/dnest_vmap.c:474-526,
    with [ties] false. *)
Definition perturb_prior1 (ties : bool) (W : list nat) (h : R) (limits : arr) (which_level_update size_levels : Z) (pm : arr) : outcome (arr * R) :=
  which <- choose_which W ;;
  let wl := if (size_levels - 15 <? which_level_update - 5)%Z then (size_levels - 15)%Z else (which_level_update - 5)%Z in
  let width := step_width num_params limits wl which in
  x <- rd num_params pm which ;;
  v <- dnest_wrap (x + h * width) (lo rng which) (hi rng which) ;;
  let pm := upd pm which v in
  logH <- (if (which <? num_params_var)%nat then Ok (gauss_log which v - gauss_log which x) else penalties pm which) ;;
  pm <- (if ties && (uniform =? 2)%nat then set_center_width m pm else Ok pm) ;;
  Ok (pm, logH).
Definition perturb_line_prior1 := perturb_prior1 true.
Definition perturb_mmap_prior1 := perturb_prior1 true.
Definition perturb_vmap_prior1 := perturb_prior1 false.
Definition perturb_pmap := perturb_prior1 false.
(** the function installed, by type_lag_prior_pr: src/dnest_line.c:33-36,
    src/dnest_mmap.c:34-37, src/dnest_vmap.c:33-36 *)
Definition perturb_line (type_lag_prior_pr : nat) := if (type_lag_prior_pr =? 0)%nat then perturb_line_prior0 else perturb_line_prior1.
Definition perturb_mmap (type_lag_prior_pr : nat) := if (type_lag_prior_pr =? 0)%nat then perturb_mmap_prior0 else perturb_mmap_prior1.
Definition perturb_vmap (type_lag_prior_pr : nat) := if (type_lag_prior_pr =? 0)%nat then perturb_vmap_prior0 else perturb_vmap_prior1.
End Penalties.

(** perturb_con, src/dnest_con.c:160-193 *)
Definition perturb_con (W : list nat) (h : R) (limits : arr) (which_level_update size_levels : Z) (pm : arr) : outcome (arr * R) :=
  which <- choose_which W ;;
  let wl := if (size_levels - 10 <? which_level_update)%Z then (size_levels - 10)%Z else which_level_update in
  let width := step_width num_params_var limits wl which in
  x <- rd num_params_var pm which ;;
  v <- dnest_wrap (x + h * width) (lo rng which) (hi rng which) ;;
  Ok (upd pm which v, 0).
End Prior.
End Layout.
