(** * Spec_Work: what C78 counts in the text. *)
From Verif Require Import Base.
Local Open Scope N_scope.

(** ['('] is 40 and ['{'] is 123. *)
Definition opens (c : char) : bool := (c =? 40) || (c =? 123).
(** How many of the characters of a text are opening brackets. *)
Definition openers (t : str) : nat := length (filter opens t).
(** [n] times ['(']. *)
Definition only_open (n : nat) : str := repeat 40 n.
