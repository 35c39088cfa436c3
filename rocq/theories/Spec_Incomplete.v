(** * Spec_Incomplete: when a text that was refused was merely not finished, and when two refusals are the same. *)
From Verif Require Import Base Value Chars Parse Spec_Grammar.
Local Open Scope N_scope.

(** The text [w] begins the name of a variant (and perhaps the white space behind it), and there is nothing behind it. *)
Definition begins_variant (U : unicode) (w : str) : Prop :=
  w <> [] /\ exists n nt sp more, g_variant_name U n nt /\ ws sp /\ nt ++ sp = w ++ more.

(** The error tells that the text [s] ended too early: it is located at the end of the text (and, where it is about an escape code, the text ends in the
    backslash), or no value was found where the text has nothing but the name of a variant. *)
Definition cut_short (U : unicode) (s : str) (e : perr) : Prop :=
  (start_loc e = blen s /\ (err e = ECharEscape -> exists a, s = a ++ [c_bslash])) \/
  (err e = EExpectedValue /\ exists a w, s = a ++ w /\ start_loc e = blen a /\ begins_variant U w).

(** The same thing wrong at the same place. *)
Definition same_error (e e' : perr) : Prop := err e' = err e /\ start_loc e' = start_loc e.
