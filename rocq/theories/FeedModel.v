(** What the likelihoods are given: normalised curves, mean errors and the combined light
    curve of each set; the end of read_data, src/read.c:895-928, with cal_mean_error,
    src/read.c:1040-1085, and scale_con_line (RecModel.v).  Real numbers. *)
From Coq Require Import Reals List Arith Bool.
From Verif Require Import CPrelude SemisepModel RecModel SetsModel.
Import ListNotations.
Open Scope R_scope.

(** a set as read: times, and (flux, error), of the continuum and of the lines *)
Record rawset := Raw { r_tcon : list R; r_con : curve; r_lines : list (list R * curve) }.

(** The loop of cal_mean_error over the errors of one curve, src/read.c:1050-1055, 1073-1078 *)
Definition mean_error (c : curve) : R := fold_left (fun m p => m + snd p) c 0 / INR (length c).
(** src/read.c:1048-1062; the mean of no points is 0/0 *)
Definition con_mean (vmap : bool) (c : curve) : outcome R :=
  if vmap then Ok 0 else match c with [] => Stuck | _ => Ok (mean_error c) end.
(** src/read.c:1065-1081 *)
Definition line_mean (c : curve) : R := match c with [] => 0 | _ => mean_error c end.

(** memcpy of n doubles to dst + off; memory from malloc is not set ([None]) *)
Definition memcpy (dst : list (option R)) (off : nat) (src : list R) (n : nat) : outcome (list (option R)) :=
  foldM (fun d k => x <- get src k ;; put d (off + k) (Some x)) (seq 0 n) dst.
(** One of the arrays t, f, fe of alldata[i], src/read.c:909-928 *)
Definition combine (con : list R) (lines : list (list R)) : outcome (list (option R)) :=
  let n := fold_left (fun n l => (n + length l)%nat) lines (length con) in
  a <- memcpy (repeat None n) 0 con (length con) ;;
  x <- foldM (fun x l => let '(a, np) := x in a <- memcpy a np l (length l) ;; Ok (a, (np + length l)%nat)) lines (a, length con) ;;
  Ok (fst x).

(** A set as the likelihoods use it, with the factors, flux_minmax, and the arrays of
    alldata. *)
Record prepared := Prepared { p_set : lcset; p_scale : list R; p_minmax : list (option (R * R));
  p_t : list (option R); p_f : list (option R); p_fe : list (option R) }.
Definition rd (l : list R) : arr := fun k => nth k l 0.
Definition val (l : list (option R)) : arr := fun k => match nth_error l k with Some (Some x) => x | _ => 0 end.
Definition no_curve : ncurve := NCurve 1 [] None.
Definition prepare_set (vmap : bool) (r : rawset) (ns : list ncurve) : outcome prepared :=
  match ns with
  | [] => Stuck
  | n0 :: nl =>
      em <- con_mean vmap (npts n0) ;;
      at_ <- combine (r_tcon r) (map fst (r_lines r)) ;;
      af <- combine (map fst (npts n0)) (map (fun n => map fst (npts n)) nl) ;;
      ae <- combine (map snd (npts n0)) (map (fun n => map snd (npts n)) nl) ;;
      let line j := npts (nth j nl no_curve) in
      Ok (Prepared (LcSet (length (npts n0)) (rd (r_tcon r)) (rd (map snd (npts n0))) em
            (length nl) (fun j => length (line j)) (fun j => rd (nth j (map fst (r_lines r)) [])) (fun j => rd (map snd (line j))) (fun j => line_mean (line j)) (val af))
           (map nscale_ ns) (map nminmax ns) at_ af ae)
  end.
Fixpoint prepare_sets (vmap : bool) (sets : list rawset) (out : list (list ncurve)) : outcome (list prepared) :=
  match sets, out with
  | r :: sets, ns :: out => p <- prepare_set vmap r ns ;; q <- prepare_sets vmap sets out ;; Ok (p :: q)
  | _, _ => Ok []
  end.
(** [uniform]: flag_uniform_tranfuns == 1 || flag_uniform_var_params == 1 *)
Definition prepare (vmap uniform : bool) (sets : list rawset) : outcome (list prepared) :=
  x <- scale_con_line vmap uniform (map (fun r => (r_con r, map snd (r_lines r))) sets) ;;
  prepare_sets vmap sets (fst x).
