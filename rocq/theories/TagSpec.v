(** What a file of "Tag value" lines means, independently of how it is read. *)
From Coq Require Import ZArith List Bool Ascii String.
From Verif Require Import CPrelude TagModel.
Import ListNotations.

(** Lines of a text: what stands between newline characters. *)
Fixpoint split_at (sep : ascii -> bool) (f : list ascii) : list (list ascii) :=
  match f with
  | [] => [[]]
  | c :: r =>
    if sep c then [] :: split_at sep r
    else match split_at sep r with
         | w :: ws => (c :: w) :: ws
         | [] => [[c]]
         end
  end.
Definition lines (f : list ascii) : list (list ascii) :=
  split_at (fun c => if ascii_dec c nl then true else false) f.

(** Words of a line: maximal non-empty pieces without white space. *)
Definition words (l : list ascii) : list word :=
  filter (fun w => match w with [] => false | _ => true end) (split_at isspace l).

Inductive kind := Ignored | Comment | Setting (tag value : word).

Section Meaning.
Variable comment : ascii -> bool.
Definition kind_of (l : list ascii) : kind :=
  match words l with
  | (c :: t) :: v :: _ => if comment c then Comment else Setting (c :: t) v
  | _ => Ignored
  end.
(** All settings of a text, in order. *)
Definition settings (f : list ascii) : list (word * word) :=
  flat_map (fun l => match kind_of l with Setting t v => [(t, v)] | _ => [] end) (lines f).
End Meaning.

(** Plain text: no NUL character, no line with more than 198 characters. *)
Definition plain (f : list ascii) : Prop :=
  ~ In NUL f /\ forall l, In l (lines f) -> (List.length l <= 198)%nat.

(** Every tag is known and given at most once. *)
Definition well_formed (known : list word) (ss : list (word * word)) : Prop :=
  NoDup (map fst ss) /\ incl (map fst ss) known.

(** The value given for a tag. *)
Definition given (ss : list (word * word)) (tag : word) : option word :=
  match find (fun s => if list_eq_dec ascii_dec (fst s) tag then true else false) ss with
  | Some s => Some (snd s)
  | None => None
  end.
