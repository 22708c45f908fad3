(** Reading guide for the parameter vector, stated without the program. *)
From Coq Require Import Reals List Bool Arith.
From Verif Require Import SemisepModel ParamModel.
Open Scope nat_scope.

(** What a parameter of a line stands for: its systematic error, or the amplitude,
    the centre or the width of its k-th component. *)
Inductive role := SysErr | Amp (k : nat) | Centre (k : nat) | Width (k : nat).
Definition role_ok (ng : nat) (r : role) : Prop :=
  match r with SysErr => True | Amp k | Centre k | Width k => k < ng end.
(** its place among the parameters of the line *)
Definition offset (r : role) : nat :=
  match r with SysErr => 0 | Amp k => 1 + 3 * k | Centre k => 2 + 3 * k | Width k => 3 + 3 * k end.

Section Spec.
Variable nset : nat.
Variable nlset : nat -> nat.
Variable ng : nat.
Variable uniform : nat.
Variable uniform_var : bool.

(** lines of the sets before i *)
Fixpoint before (i : nat) : nat := match i with O => 0 | S i => before i + nlset i end.
(** lines stored: all lines of all sets, or the largest number of lines of one set *)
Definition nlines : nat := if uniform =? 1 then nlset_max nset nlset else before nset.
Definition line_no (i j : nat) : nat := if uniform =? 1 then j else before i + j.
(** a line that exists *)
Definition has_line (i j : nat) : Prop := i < nset /\ j < nlset i.
Definition slot_at (m : nat) (r : role) : nat := num_params_var nset uniform_var + m * per_line ng + offset r.
Definition slot (i j : nat) (r : role) : nat := slot_at (line_no i j) r.

(** s takes its value from b: the centres and widths of the second and later sets
    when the option for that (2) is on *)
Definition ties_role (r : role) : Prop := match r with Centre _ | Width _ => True | _ => False end.
Definition tied (ties : bool) (s b : nat) : Prop :=
  ties = true /\ uniform = 2 /\ exists i j r, 1 <= i /\ has_line i j /\ role_ok ng r /\ ties_role r /\ s = slot i j r /\ b = slot 0 j r.

(** A parameter vector respects its ranges and fixed values: tied parameters have
    the value of the first set, the other fixed ones their fixed value, the other
    free ones lie in their range. *)
Definition respects (ties : bool) (rng : ranges) (fx : fixed) (pm : arr) : Prop :=
  forall s, s < num_params nset nlset ng uniform uniform_var ->
    (exists b, tied ties s b /\ pm s = pm b) \/
    (~ (exists b, tied ties s b) /\
     if is_fixed fx s then pm s = fix_val fx s else (lo rng s <= pm s <= hi rng s)%R).
(** The centres of every line are in ascending order. *)
Definition ordered (pm : arr) : Prop :=
  forall m k, m < nlines -> k + 1 < ng -> (pm (slot_at m (Centre k)) <= pm (slot_at m (Centre (k + 1))))%R.
End Spec.
