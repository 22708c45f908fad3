(** The densities the sampler is meant to explore, stated without the program. *)
From Coq Require Import Reals ZArith List Bool Arith.
From Verif Require Import SemisepModel ParamModel ParamSpec.
Open Scope nat_scope.

Fixpoint total (n : nat) (f : nat -> R) : R := match n with O => 0%R | S n => (total n f + f n)%R end.

Section Target.
Variable nset : nat.
Variable nlset : nat -> nat.
Variable ng : nat.
Variable uniform : nat.
Variable uniform_var : bool.
Variable ties : bool.
Notation nvar := (num_params_var nset uniform_var).
Notation np := (num_params nset nlset ng uniform uniform_var).
Notation nlines := (nlines nset nlset uniform).
Notation slot_at := (slot_at nset ng uniform_var).
Variables mean sd : arr.
Variables posivity gap : bool.
Variables width_factor lag_factor year : R.
Variables gap_center gap_width : arr.

(** Penalty of a component with centre c and width exp w in a line of set i: 100 for
    reaching below lag zero; up to 100 for a narrow component whose lag, counted
    within the year, is inside the gap of the set. *)
Definition below_zero (c w : R) : R := if Rlt_dec c (width_factor * exp w) then 100 else 0.
Definition phase (lag : R) : R := (year * frac_part (lag / year))%R.
Definition in_gap (i : nat) (c w : R) : R :=
  let d := Rabs (phase (c + lag_factor * exp w) - gap_center i) in
  if Rlt_dec d (gap_width i) then
    if Rlt_dec (exp w) (gap_width i) then (100 * (1 - Rsqr (d / gap_width i)))%R else 0%R
  else 0%R.
Definition penalty (i : nat) (c w : R) : R :=
  ((if posivity then below_zero c w else 0) + (if gap then in_gap i c w else 0))%R.

(** the set a line number belongs to; shared lines count for the last set *)
Definition owns (own : nat -> nat) : Prop :=
  forall i j, has_line nset nlset i j -> own (line_no nlset uniform i j) = if uniform =? 1 then nset - 1 else i.
(** lines whose centres and widths are copies of the first set's count once *)
Definition counted (m : nat) : bool := if ties && (uniform =? 2) then m <? nlset 0 else true.

(** Gaussian in the variability parameters times the exponential of minus the
    penalties of all components. *)
Definition gaussian (s : nat) (x : R) : R := (- (1 / 2) * Rsqr ((x - mean s) / sd s))%R.
Definition log_target (own : nat -> nat) (pm : arr) : R :=
  (total nvar (fun s => gaussian s (pm s)) -
   total nlines (fun m => if counted m then total ng (fun k => penalty (own m) (pm (slot_at m (Centre k))) (pm (slot_at m (Width k)))) else 0))%R.
Definition target (own : nat -> nat) (pm : arr) : R := exp (log_target own pm).

(** A parameter vector in the interior: free parameters in their (half-open) range,
    copies equal to what they copy. *)
Definition inside (rng : ranges) (fx : fixed) (pm : arr) : Prop :=
  (forall s, s < np -> is_fixed fx s = false -> (lo rng s <= pm s < hi rng s)%R) /\
  (forall s b, tied nset nlset ng uniform uniform_var ties s b -> pm s = pm b).
(** no two centres of a line coincide or are out of order *)
Definition strictly_ordered (pm : arr) : Prop :=
  forall m k, m < nlines -> k + 1 < ng -> (pm (slot_at m (Centre k)) < pm (slot_at m (Centre (k + 1))))%R.
End Target.
