(** What it means that the accesses of a routine are in order: nothing outside
    the blocks, and no two arrays on top of each other. *)
From Coq Require Import NArith List String.
From Verif Require Import MemModel.
Local Open Scope N_scope.

(** First byte of element [k] behind pointer [p], and the byte after it. *)
Definition first_byte (p : ptr) (k : N) : N := off p + es p * k.
Definition past_byte (p : ptr) (k : N) : N := off p + es p * k + es p.

(** Every element touched lies within the block. *)
Definition inside (h : heap) (a : access) : Prop :=
  forall k, snd a k -> past_byte (fst a) k <= h (bk (fst a)).

(** Two arrays in use at the same time: different names, and not from different
    passes of a loop. *)
Definition in_use_together (p q : ptr) : Prop :=
  nm p <> nm q /\ (snd (nm p) = snd (nm q) \/ snd (nm p) = 0 \/ snd (nm q) = 0).

(** Elements of arrays in use at the same time have no byte in common. *)
Definition apart (a b : access) : Prop :=
  in_use_together (fst a) (fst b) -> bk (fst a) = bk (fst b) ->
  forall k l, snd a k -> snd b l ->
  past_byte (fst a) k <= first_byte (fst b) l \/ past_byte (fst b) l <= first_byte (fst a) k.

Definition all_inside (h : heap) (l : list access) : Prop := forall a, In a l -> inside h a.
Definition all_apart (l : list access) : Prop := forall a b, In a l -> In b l -> apart a b.

(** A routine that may be run on heap [h]: with its own matrices added, whose
    sizes are [int]s, its accesses are inside and apart. *)
Definition safe (h : heap) (r : routine) : Prop :=
  all_inside (with_locals h (own r)) (accs r) /\ all_apart (accs r) /\
  (forall b n, In (b, n) (own r) -> n <= int_max).
