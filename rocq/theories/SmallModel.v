(** Small routines: choice of the number of components, mean and spread of the
    posterior sample, response ratios, loaded ranges, elapsed time. *)
From Coq Require Import Reals ZArith List Bool.
From Flocq Require Import Core.
From Verif Require Import CPrelude SemisepModel.
Import ListNotations.

(** ** Best number of components, src/mc_line.c:71-113 and 138; the same loop in
    src/mc_pmap.c:66-86, 109 and src/mc_vmap.c:67-93, 111.  [lz] are the evidences
    in the order tried; the result is jzmax. *)
Fixpoint best_loop (lz : list dbl) (j : nat) (logz_max : dbl) (jzmax : nat) : nat :=
  match lz with
  | [] => jzmax
  | z :: r => if dlt logz_max z then best_loop r (S j) z j else best_loop r (S j) logz_max jzmax
  end.
Definition best_components (num_gaussian_low : Z) (lz : list dbl) : Z :=
  (num_gaussian_low + Z.of_nat (best_loop lz 0 (Val (- DBL_MAX)) 0))%Z.

Open Scope R_scope.
(** ** Mean and standard deviation, src/mc_line.c:1319-1348 and
    src/mc_con.c:421-458, over the reals.  [P] is posterior_sample, n rows of m
    numbers. *)
Definition post_mean_std (n m : nat) (P : arr) (pm0 ps0 : arr) : arr * arr :=
  let pm := for_ 0 m (fun j a => upd a j 0) pm0 in
  let ps := for_ 0 m (fun j a => upd a j 0) ps0 in
  let pm := for_ 0 n (fun i a => for_ 0 m (fun j a => upd a j (a j + P (i * m + j)%nat)) a) pm in
  let pm := for_ 0 m (fun j a => upd a j (a j / INR n)) pm in
  let ps := for_ 0 n (fun i a => for_ 0 m (fun j a => upd a j (a j + (P (i * m + j)%nat - pm j) ^ 2)) a) ps in
  let ps := for_ 0 m (fun j a => if (1 <? n)%nat then upd a j (sqrt (a j / (INR n - 1))) else upd a j 0) ps in
  (pm, ps).

(** ** Ranges, src/init.c:590-624.  [lo], [hi] are par_range_model, [v], [sd] are
    var_param and var_param_std; [n] is num_params_var. *)
Definition drw_one (v sd : arr) (i : nat) (r : arr * arr) : outcome (arr * arr) :=
  let '(lo, hi) := r in
  if Rlt_dec 0 (sd i) then
    let low := v i - 5 * sd i in
    let upp := v i + 5 * sd i in
    if Rlt_dec upp (lo i) then Exit
    else if Rlt_dec (hi i) low then Exit
    else Ok (upd lo i (Rmax (lo i) low), upd hi i (Rmin (hi i) upp))
  else Ok r.
(** for(j=0; j<n; j+=3): sets left to do *)
Fixpoint drw_sets (sets j : nat) (v sd : arr) (r : arr * arr) : outcome (arr * arr) :=
  match sets with
  | O => Ok r
  | S s => r <- drw_one v sd (j + 1) r ;; r <- drw_one v sd (j + 2) r ;; drw_sets s (j + 3) v sd r
  end.
(** num_params_var is 3*nset (src/mc_con.c). *)
Definition set_drw_par_range_load (nset : nat) (v sd lo hi : arr) : outcome (arr * arr) := drw_sets nset 0 v sd (lo, hi).

(** ** get_hms, src/system.c:58-64.  Every double operation is rounded by
    [rnd]; conversion to int and int multiplication are undefined when out of
    range. *)
Definition int_ok (z : Z) : bool := ((- 2 ^ 31 <=? z) && (z <? 2 ^ 31))%Z.
Definition to_int (x : R) : outcome Z := if int_ok (Zfloor x) then Ok (Zfloor x) else UB.
Definition mul_int (a b : Z) : outcome Z := if int_ok (a * b) then Ok (a * b)%Z else UB.
Definition get_hms (rnd : R -> R) (dt : R) : outcome (Z * Z * R) :=
  h <- to_int (rnd (dt / 3600)) ;;
  h3600 <- mul_int h 3600 ;;
  m <- to_int (rnd (rnd (dt - IZR h3600) / 60)) ;;
  m60 <- mul_int m 60 ;;
  Ok (h, m, rnd (rnd (dt - IZR h3600) - IZR m60)).

(** ** Response ratios, src/mc_pmap.c:235-273.  One memory of doubles with
    addresses; idx, npl are num_params_var and num_params_line, G is
    num_gaussian. *)
Section Ratio.
  Context {V : Type}.
  Variable add : V -> V -> V.
  Definition mem := nat -> V.
  Definition mset (m : mem) (a : nat) (v : V) : mem := fun k => if Nat.eqb k a then v else m k.
  Definition memcpy (m : mem) (dst src n : nat) : mem :=
    fun k => if (dst <=? k)%nat && (k <? dst + n)%nat then m (src + (k - dst))%nat else m k.
  (** for(k=1; k<G; k++) *)
  Definition comps (G src dst idx j : nat) (m : mem) : mem :=
    fold_left (fun m k => mset m (dst + (idx + j + 1 + k * 3)) (add (m (dst + (idx + j + 1 + k * 3))%nat) (m (src + (idx + j + 1 + 0 * 3))%nat)))
      (seq 1 (G - 1)) m.
  (** for(j=0; j<npl; j += 1+3*G); [Stuck] when out of fuel *)
  Fixpoint lines_loop (fuel G src dst idx npl j : nat) (m : mem) : outcome mem :=
    if (j <? npl)%nat then
      match fuel with
      | O => Stuck
      | S f => lines_loop f G src dst idx npl (j + (1 + 3 * G)) (comps G src dst idx j m)
      end
    else Ok m.
  Definition transform_response_ratio (G idx npl np src dst : nat) (m : mem) : outcome mem :=
    lines_loop (S npl) G src dst idx npl 0 (memcpy m dst src np).
  Definition transform_response_ratio_inplace (G idx npl src : nat) (m : mem) : outcome mem :=
    lines_loop (S npl) G src src idx npl 0 m.
End Ratio.
