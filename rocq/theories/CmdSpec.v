(** How a command line is read, in the words of the manual page (and of the comment in
    src/mygetopt.c:69-92, 191-240): written without state and without moving the
    arguments. *)
From Coq Require Import List Ascii String Bool.
Import ListNotations.

(** an argument *)
Notation word := (list ascii).
Definition str_of (s : string) : word := list_ascii_of_string s.
(** "-" followed by something *)
Definition dash_word (a : word) : bool :=
  match a with c :: _ :: _ => if ascii_dec c "-" then true else false | _ => false end.

(** Options in order, each a letter with its value if it has one; then the arguments that
    are no options: those in front of an end mark and those after it.  A letter that is
    no option, or has no value though it needs one, makes the line wrong. *)
Inductive parsed : Type :=
| Parsed (opts : list (ascii * option word)) (before : list word) (stopped : bool) (after : list word)
| Rejected (opts : list (ascii * option word)) (c : ascii).
Definition add_opt (o : ascii * option word) (p : parsed) : parsed :=
  match p with Parsed os b t a => Parsed (o :: os) b t a | Rejected os c => Rejected (o :: os) c end.
Definition add_word (w : word) (p : parsed) : parsed :=
  match p with Parsed os b t a => Parsed os (w :: b) t a | Rejected os c => Rejected os c end.
Section Scan.
  (** POSIXLY_CORRECT: the first argument that is no option ends the options *)
  Variable posix : bool.
  (** the letters without and with a value *)
  Variables plain valued : ascii -> bool.
  Fixpoint scan (args : list word) : parsed :=
    match args with
    | [] => Parsed [] [] false []
    | a :: r =>
      if list_eq_dec ascii_dec a (str_of "--") then Parsed [] [] true r
      else if dash_word a then
        (fix letters (cs : word) : parsed :=
          match cs with
          | [] => scan r
          | c :: cs =>
            if plain c then add_opt (c, None) (letters cs)
            else if valued c then
              match cs with
              | [] => match r with [] => Rejected [] c | x :: r' => add_opt (c, Some x) (scan r') end
              | _ => add_opt (c, Some cs) (scan r)
              end
            else Rejected [] c
          end) (tl a)
      else if posix then Parsed [] [] true (a :: r)
      else add_word a (scan r)
    end.
End Scan.
