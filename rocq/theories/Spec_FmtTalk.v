(** * Spec_FmtTalk: how a value is written to a sink, step by step, when the sink, the custom formatters and the context
    printer may do and remember anything (C98). *)
From Verif Require Import Base Value Chars Spec_Grammar Fmt Spec_Fmt Spec_Layout Spec_Value.
Local Open Scope N_scope.

(** What is written for one value that no custom formatter wants: pieces of text, and the values inside it. *)
Inductive item (T : Type) : Type := Text (s : str) | Inside (v : value T).
Arguments Text {T}. Arguments Inside {T}.

Section Contents.
  Context {T : Type} (bare : str -> bool) (indent lead : str).

  Definition line_break (n : nat) : str := [c_nl] ++ lead ++ concat (repeat indent n).
  (** The optional space; the gap inside curly braces and after commas; the gap inside round ones. *)
  Definition gap_space (st : style) : str := match st with Compact => [] | _ => s2l " " end.
  Definition gap_item (st : style) : str := match st with Compact => [] | Normal => s2l " " | Pretty n => line_break n end.
  Definition gap_round (st : style) : str := match st with Pretty n => line_break n | _ => [] end.
  Definition one_deeper (st : style) : style := match st with Pretty n => Pretty (S n) | s => s end.

  Fixpoint separated (sep : list (item T)) (l : list (list (item T))) : list (item T) :=
    match l with
    | [] => []
    | [a] => a
    | a :: l' => a ++ sep ++ separated sep l'
    end.

  Definition body (st : style) (c : composite (value T)) : list (item T) :=
    let inner := one_deeper st in
    match c with
    | Named [] => [Text (s2l "{}")]
    | Unnamed [] => [Text (s2l "()")]
    | Named l =>
        [Text (s2l "{"); Text (gap_item inner)] ++
        separated [Text (s2l ","); Text (gap_item inner)]
          (map (fun kv => [Text (field_name bare (fst kv)); Text (s2l ":"); Text (gap_space inner); Inside (snd kv)]) l) ++
        [Text (gap_item st); Text (s2l "}")]
    | Unnamed l =>
        [Text (s2l "("); Text (gap_round inner)] ++
        separated [Text (s2l ","); Text (gap_item inner)] (map (fun v => [Inside v]) l) ++
        [Text (gap_round st); Text (s2l ")")]
    end.

  (** [None]: a 256-bit number, which cannot be written. *)
  Definition contents (st : style) (d : vdef (value T)) : option (list (item T)) :=
    match d with
    | DPrim p => omap (fun s => [Text s]) (leaf_text p)
    | DBits b => Some [Text (bits_text b)]
    | DComposite c => Some (body st c)
    | DVariant n c => Some ([Text (variant_name bare n); Text (gap_space st)] ++ body st c)
    end.
End Contents.

Section Talk.
  Context {T W : Type} (bare : str -> bool).
  (** The sink: [write_str]. *)
  Context (wr : W -> str -> W * bool).
  Context (indent lead : str).
  Context (formatters : list (value T -> W -> option bool * W)).
  Context (printer : option (T -> W -> bool * W)).

  (** A text is handed to the sink in pieces, up to the first one that the sink refuses. *)
  Definition handed (s : str) (w w' : W) (ok : bool) : Prop :=
    exists pieces unsaid, concat pieces ++ unsaid = s /\ feed wr w pieces = (w', ok) /\ (ok = true -> unsaid = []).

  (** The formatters are asked in order until one answers; whatever those before it wrote stays. *)
  Inductive asked (v : value T) : list (value T -> W -> option bool * W) -> W -> W -> option bool -> Prop :=
  | A_nobody : forall w, asked v [] w w None
  | A_declines : forall g fs w w1 w2 o, g v w = (None, w1) -> asked v fs w1 w2 o -> asked v (g :: fs) w w2 o
  | A_answers : forall g fs w w1 ok, g v w = (Some ok, w1) -> asked v (g :: fs) w w1 (Some ok).

  (** The context comes first: [<], what the printer writes, [> ]. *)
  Inductive context_written (c : T) : W -> W -> bool -> Prop :=
  | X_none : forall w, printer = None -> context_written c w w true
  | X_open_fails : forall pc w w1, printer = Some pc -> handed (s2l "<") w w1 false -> context_written c w w1 false
  | X_printer_fails : forall pc w w1 w2, printer = Some pc -> handed (s2l "<") w w1 true -> pc c w1 = (false, w2) ->
      context_written c w w2 false
  | X_all : forall pc w w1 w2 w3 ok, printer = Some pc -> handed (s2l "<") w w1 true -> pc c w1 = (true, w2) ->
      handed (s2l "> ") w2 w3 ok -> context_written c w w3 ok.

  (** [written st v w w' ok]: writing [v] in style [st] takes the sink (with everything the formatters remember) from [w]
      to [w'] and reports [ok].  Nothing happens after the first failure. *)
  Inductive written (st : style) : value T -> W -> W -> bool -> Prop :=
  | W_context_fails : forall d c w w1, context_written c w w1 false -> written st (Val d c) w w1 false
  | W_custom : forall d c w w1 w2 ok, context_written c w w1 true -> asked (Val d c) formatters w1 w2 (Some ok) ->
      written st (Val d c) w w2 ok
  | W_unwritable : forall d c w w1 w2, context_written c w w1 true -> asked (Val d c) formatters w1 w2 None ->
      contents bare indent lead st d = None -> written st (Val d c) w w2 false
  | W_contents : forall d c w w1 w2 w3 items ok, context_written c w w1 true -> asked (Val d c) formatters w1 w2 None ->
      contents bare indent lead st d = Some items -> all_written (one_deeper st) items w2 w3 ok -> written st (Val d c) w w3 ok
  with all_written (st : style) : list (item T) -> W -> W -> bool -> Prop :=
  | I_done : forall w, all_written st [] w w true
  | I_text_fails : forall s l w w1, handed s w w1 false -> all_written st (Text s :: l) w w1 false
  | I_text : forall s l w w1 w2 ok, handed s w w1 true -> all_written st l w1 w2 ok -> all_written st (Text s :: l) w w2 ok
  | I_value_fails : forall v l w w1, written st v w w1 false -> all_written st (Inside v :: l) w w1 false
  | I_value : forall v l w w1 w2 ok, written st v w w1 true -> all_written st l w1 w2 ok ->
      all_written st (Inside v :: l) w w2 ok.
End Talk.

(** A sink for which it makes no difference in how many pieces a text arrives: strings, logs, buffers that fill up
    character by character, each with anything the formatters remember beside it. *)
Definition indifferent {W} (wr : W -> str -> W * bool) : Prop :=
  (forall w, wr w [] = (w, true)) /\
  forall w a b, wr w (a ++ b) = let (w1, ok) := wr w a in if ok then wr w1 b else (w1, false).

(** The values that are asked about when the answers are [a]: those that are not inside a value somebody answered for. *)
Definition reached {T} (a : value T -> answer) (v : value T) (p : list nat) : Prop :=
  node_at v p <> None /\
  forall q i r n, p = q ++ i :: r -> node_at v q = Some n -> a n = Declines.

(** A formatter with these answers that notes each question; the sink is a string beside the notes. *)
Definition noting {T} (a : value T -> answer) (v : value T) (w : str * list (value T)) : option bool * (str * list (value T)) :=
  match a v with
  | Declines => (None, (fst w, snd w ++ [v]))
  | Writes s => (Some true, (fst w ++ s, snd w ++ [v]))
  | Fails => (Some false, (fst w, snd w ++ [v]))
  end.
Definition beside_notes {T} (w : str * list (value T)) (s : str) : str * list (value T) * bool := ((fst w ++ s, snd w), true).
