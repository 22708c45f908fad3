(** The sample files: how parameter vectors are written by the sampler, picked
    by the post-processing, and read by the reconstructions.

    A file is the list of its characters.  Opening and closing, and the
    broadcasts to the other tasks, are left out. *)
From Coq Require Import ZArith List Bool Ascii.
From Verif Require Import CPrelude TagModel ScanModel TextModel.
Import ListNotations.
Open Scope Z_scope.

(** print_particle_con, _line, _pmap, _vmap, _mmap: src/dnest_con.c:125-135,
    src/dnest_line.c:534-544, src/dnest_pmap.c:327-337, src/dnest_vmap.c:368-378,
    src/dnest_mmap.c:273-283. *)
Definition print_particle (pm : list b64) : list ascii := flat_map (fun x => print_f x ++ [BL]) pm ++ [nl].
(** read_particle_con, _line, _pmap, _vmap, _mmap: src/dnest_con.c:200-216,
    src/dnest_line.c:801-817, src/dnest_pmap.c:427-443, src/dnest_vmap.c:538-554,
    src/dnest_mmap.c:454-470. *)
Fixpoint read_particle (n : nat) (f : list ascii) : outcome (list b64 * list ascii) :=
  match n with
  | O => Ok ([], f)
  | S m =>
    match scan_lf f with
    | None => Exit
    | Some (x, f) => r <- read_particle m f ;; let '(xs, f) := r in Ok (x :: xs, f)
    end
  end.

(** The sample file, cdnest/dnest.c:901 and 664, 680: a line with '#', then one
    line for each particle saved. *)
Definition sample_text (rows : list (list b64)) : list ascii := [HASH; BL; nl] ++ flat_map print_particle rows.

(** The particles of the sample file, cdnest/dnestpostprocess.c:383-393: one line
    skipped, then num_samples particles. *)
Fixpoint read_particles (n k : nat) (f : list ascii) : outcome (list (list b64)) :=
  match k with
  | O => Ok []
  | S m => r <- read_particle n f ;; let '(xs, f) := r in r <- read_particles n m f ;; Ok (xs :: r)
  end.
Definition read_samples (n num_samples : nat) (f : list ascii) : outcome (list (list b64)) :=
  let '(_, f, _) := fgets 255 f in read_particles n num_samples f.

(** cdnest/dnestpostprocess.c:395-401: particle i is copied to every place j with
    posterior_sample_idx[j] == i. *)
Fixpoint place (i : nat) (p : list b64) (idx : list nat) (ps : list (option (list b64))) : list (option (list b64)) :=
  match idx, ps with
  | j :: idx, q :: ps => (if (j =? i)%nat then Some p else q) :: place i p idx ps
  | _, _ => []
  end.
Fixpoint pick (i : nat) (rows : list (list b64)) (idx : list nat) (ps : list (option (list b64))) : list (option (list b64)) :=
  match rows with
  | [] => ps
  | p :: rows => pick (S i) rows idx (place i p idx ps)
  end.
(** cdnest/dnestpostprocess.c:376-420.  posterior_sample is allocated at line 357
    and not filled; printing a place that was not copied to is undefined. *)
Definition posterior_file (n num_samples : nat) (idx : list nat) (f : list ascii) : outcome (list ascii) :=
  rows <- read_samples n num_samples f ;;
  ps <- mapM (fun q => match q with Some p => Ok p | None => UB end) (pick 0 rows idx (map (fun _ => None) idx)) ;;
  Ok ([HASH; BL] ++ print_d (Z.of_nat (List.length idx)) ++ [nl] ++ flat_map print_particle ps).

(** What the readers of the posterior sample do: src/mc_line.c:209-233,
    src/mc_con.c:400-426, src/mc_mmap.c:272-296, src/mc_vmap.c:648-672,
    src/line_decomp.c:57-82, src/line_decomp_mmap.c:57-82, and the routines that
    print the best parameters, src/mc_line.c:1297-1321, src/mc_mmap.c:161-185,
    src/mc_vmap.c:174-198.  The format "# %d" wants '#' at once; then num_ps
    particles, each followed by white space. *)
Fixpoint read_rest (n k : nat) (f : list ascii) : outcome (list (list b64)) :=
  match k with
  | O => Ok []
  | S m => r <- read_particle n f ;; let '(xs, f) := r in r <- read_rest n m (skip_space f) ;; Ok (xs :: r)
  end.
Definition read_posterior (n : nat) (f : list ascii) : outcome (list (list b64)) :=
  match f with
  | c :: f =>
    if ascii_dec c HASH then
      v <- scan_d f ;;
      match v with
      | None => Exit
      | Some (num_ps, f) => read_rest n (Z.to_nat num_ps) f
      end
    else Exit
  | [] => Exit
  end.
