(** * Spec_Memory: conversations with custom parsers that have memory. *)
From Verif Require Import Base Value Chars Parse ParseState.

(** What a custom parser says about a text: nothing, or a value or an error, and where it has left the cursor. *)
Definition answer : Type := option (result (value unit) perr * str).

(** [asked ps m t m' a]: the parsers are asked about [t] one after the other; one that declines hands the text on as it leaves it, and what is remembered
    by then; the first that does not decline answers for all. *)
Inductive asked {M : Type} : list (mparser M) -> M -> str -> M -> answer -> Prop :=
| As_none : forall m t, asked [] m t m None
| As_answers : forall p ps m t m' r cur, p m t = (m', (Some r, cur)) -> asked (p :: ps) m t m' (Some (r, cur))
| As_declines : forall p ps m t m1 t1 m' a, p m t = (m1, (None, t1)) -> asked ps m1 t1 m' a -> asked (p :: ps) m t m' a.

(** [talk ps m l m']: asked about the texts in [l], one after the other, the parsers give the answers in [l] and their memory goes from [m] to [m']. *)
Inductive talk {M : Type} (ps : list (mparser M)) : M -> list (str * answer) -> M -> Prop :=
| Tk_nil : forall m, talk ps m [] m
| Tk_ask : forall m t a m1 l m', asked ps m t m1 a -> talk ps m1 l m' -> talk ps m ((t, a) :: l) m'.

(** The texts are ends of [s], each shorter than the one before. *)
Inductive onwards : str -> list str -> Prop :=
| On_nil : forall s, onwards s []
| On_cons : forall pre t l, onwards_from t l -> onwards (pre ++ t) (t :: l)
with onwards_from : str -> list str -> Prop :=
| Of_nil : forall t, onwards_from t []
| Of_cons : forall pre t l, pre <> [] -> onwards_from t l -> onwards_from (pre ++ t) (t :: l).

(** A parser without memory that gives the answer [a] to a text. *)
Definition says (p : cparser) (t : str) (a : answer) : Prop :=
  match a with
  | Some (r, cur) => p t = (Some r, cur)
  | None => p t = (None, t)
  end.
