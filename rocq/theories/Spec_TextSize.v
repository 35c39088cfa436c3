(** * Spec_TextSize: vocabulary for the size of formatted text (C80). *)
From Verif Require Import Base Value Spec_Cost.
Local Open Scope N_scope.

(** What a value holds apart from its structure: characters of strings and names, bits. *)
Fixpoint letters {T} (v : value T) : N :=
  match v with
  | Val d _ =>
      match d with
      | DPrim (PString s) => N.of_nat (length s)
      | DPrim _ => 0
      | DBits b => N.of_nat (length b)
      | DComposite (Unnamed l) => total (map letters l)
      | DComposite (Named l) => total (map (fun kv => N.of_nat (length (fst kv)) + letters (snd kv)) l)
      | DVariant n (Unnamed l) => N.of_nat (length n) + total (map letters l)
      | DVariant n (Named l) => N.of_nat (length n) + total (map (fun kv => N.of_nat (length (fst kv)) + letters (snd kv)) l)
      end
  end.

(** What a Rust value can hold (see C03_primitives). *)
Fixpoint rust_value {T} (v : value T) : bool :=
  match v with
  | Val d _ => match d with
               | DPrim p => prim_wf p
               | DBits _ => true
               | DComposite c | DVariant _ c => forallb (fun b => b) (values (composite_map rust_value c))
               end
  end.

(** A writer that keeps all it was ever given, and accepts or refuses each piece as it likes. *)
Definition recorder (accepts : list str -> str -> bool) (log : list str) (s : str) : list str * bool := (log ++ [s], accepts log s).
