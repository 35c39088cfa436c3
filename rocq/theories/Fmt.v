(** * Fmt: model of [/repo/src/string_impls/to_string.rs] and [custom_formatters/hex.rs]. *)
From Verif Require Import Base Value Chars.
Local Open Scope N_scope.

(** [FormatStyle], to_string.rs:355-362. *)
Inductive style : Type := Pretty (n : nat) | Normal | Compact.

(** std [Display] of unsigned integers: decimal digits, most significant first. *)
Fixpoint digits_fuel (fuel : nat) (n : N) (acc : str) : str :=
  match fuel with
  | O => acc
  | S k => let acc' := (48 + n mod 10) :: acc in
           if n <? 10 then acc' else digits_fuel k (n / 10) acc'
  end.
Definition show_N (n : N) : str := digits_fuel (S (N.size_nat n)) n [].

(** to_string.rs:560-576 *)
Definition is_ident (U : unicode) (s : str) : bool :=
  match s with
  | [] => false
  | c :: s' => is_alphabetic U c && forallb (fun c => is_alphanumeric U c || (c =? c_under)) s'
  end.

Section Formatter.
  (** A sink: [W: core::fmt::Write].  [wr w s] is [write_str]; the boolean is [true] for [Ok(())].  [write_char] is
      modelled as [write_str] of a one-char string (std's default). *)
  Context {T W : Type} (U : unicode) (wr : W -> str -> W * bool).

  (** [ToWriterBuilder] without the writer and style, to_string.rs:23-32.  A custom formatter may write whatever it
      answers; [None] = not interested. *)
  Record config : Type := {
    indent_by : str;
    leading_indent : str;
    custom_formatters : list (value T -> W -> option bool * W);
    print_context : option (T -> W -> bool * W);
  }.
  Context (cfg : config).

  (** [Formatter], to_string.rs:261-268: its mutable part. *)
  Record fstate : Type := FS { writer : W; fstyle : style }.

  Definition act : Type := fstate -> fstate * bool.

  (** [?]-sequencing of [fmt::Result]s. *)
  Definition andthen (a b : act) : act := fun f => let (f', ok) := a f in if ok then b f' else (f', false).
  Definition ret : act := fun f => (f, true).
  Fixpoint seqs (l : list act) : act := match l with [] => ret | a :: l' => andthen a (seqs l') end.

  (** [Formatter::write_str] (and [write_char]), to_string.rs:329-335. *)
  Definition write_str (s : str) : act := fun f =>
    let (w, ok) := wr (writer f) s in (FS w (fstyle f), ok).
  Definition write_char (c : char) : act := write_str [c].

  (** to_string.rs:271-284 *)
  Definition indent_step : act := fun f =>
    (FS (writer f) (match fstyle f with Compact => Compact | Normal => Normal | Pretty n => Pretty (S n) end), true).
  Definition unindent_step : act := fun f =>
    (FS (writer f) (match fstyle f with Compact => Compact | Normal => Normal | Pretty n => Pretty (Nat.pred n) end), true).

  (** [write_newline], to_string.rs:337-349 *)
  Definition write_newline (n : nat) : act :=
    andthen (write_char c_nl)
      (andthen (write_str (leading_indent cfg)) (seqs (repeat (write_str (indent_by cfg)) n))).

  (** to_string.rs:285-307 *)
  Definition space : act := fun f =>
    match fstyle f with Compact => ret f | Normal | Pretty _ => write_char c_space f end.
  Definition newline : act := fun f =>
    match fstyle f with Compact | Normal => ret f | Pretty n => write_newline n f end.
  Definition item_separator : act := fun f =>
    match fstyle f with Compact => ret f | Normal => write_char c_space f | Pretty n => write_newline n f end.

  (** to_string.rs:519-531; the body of the loop, also used by [fmt_char]. *)
  Definition fmt_escaped (c : char) : act :=
    match to_escape_code c with
    | Some e => andthen (write_char c_bslash) (write_char e)
    | None => write_char c
    end.
  Definition fmt_string (s : str) : act :=
    andthen (write_char c_dquote) (andthen (seqs (map fmt_escaped s)) (write_char c_dquote)).

  (** to_string.rs:533-543 *)
  Definition fmt_char (c : char) : act :=
    andthen (write_char c_squote) (andthen (fmt_escaped c) (write_char c_squote)).

  (** to_string.rs:545-557 *)
  Definition fmt_bitsequence (b : list bool) : act :=
    andthen (write_char c_lt)
      (andthen (seqs (map (fun x : bool => write_char (if x then c_1 else c_0)) b)) (write_char c_gt)).

  (** [write!(f, "{n}")] for [i128]: std writes the sign, then the digits. *)
  Definition fmt_int (z : Z) : act :=
    if (z <? 0)%Z then andthen (write_char c_minus) (write_str (show_N (Z.abs_N z)))
    else write_str (show_N (Z.abs_N z)).

  (** to_string.rs:502-517 *)
  Definition fmt_primitive (p : prim) : act :=
    match p with
    | PBool true => write_str (s2l "true")
    | PBool false => write_str (s2l "false")
    | PChar c => fmt_char c
    | PI128 z => fmt_int z
    | PU128 n => write_str (show_N n)
    | PString s => fmt_string s
    | PU256 _ | PI256 _ => fun f => (f, false)
    end.

  (** to_string.rs:448-500; [fv] formats a child.  The loop [for (idx, x) in ..enumerate()] writes a separator before
      every item but the first. *)
  Definition fmt_items {A} (item : A -> act) (l : list A) : act :=
    match l with
    | [] => ret
    | a :: l' => andthen (item a)
                   (seqs (map (fun x => andthen (write_str (s2l ",")) (andthen item_separator (item x))) l'))
    end.

  Definition fmt_name (n : str) : act := if is_ident U n then write_str n else fmt_string n.

  Definition fmt_field (fv : value T -> act) (kv : str * value T) : act :=
    andthen (fmt_name (fst kv)) (andthen (write_char c_colon) (andthen space (fv (snd kv)))).

  Definition fmt_composite (fv : value T -> act) (c : composite (value T)) : act :=
    match c with
    | Named [] => write_str (s2l "{}")
    | Named l =>
        andthen (write_str (s2l "{")) (andthen indent_step (andthen item_separator
          (andthen (fmt_items (fmt_field fv) l)
            (andthen unindent_step (andthen item_separator (write_str (s2l "}")))))))
    | Unnamed [] => write_str (s2l "()")
    | Unnamed l =>
        andthen (write_char c_lpar) (andthen indent_step (andthen newline
          (andthen (fmt_items fv l)
            (andthen unindent_step (andthen newline (write_char c_rpar))))))
    end.

  (** to_string.rs:430-446 *)
  Definition fmt_variant (fv : value T -> act) (name : str) (c : composite (value T)) : act :=
    andthen (if is_ident U name then write_str name else andthen (write_char c_v) (fmt_string name))
      (andthen space (fmt_composite fv c)).

  (** to_string.rs:418-428 *)
  Definition fmt_valuedef (fv : value T -> act) (d : vdef (value T)) : act :=
    match d with
    | DComposite c => fmt_composite fv c
    | DVariant n c => fmt_variant fv n c
    | DBits b => fmt_bitsequence b
    | DPrim p => fmt_primitive p
    end.

  (** [print_custom_format], to_string.rs:318-326 *)
  Fixpoint run_formatters (fs : list (value T -> W -> option bool * W)) (v : value T) (f : fstate) : option bool * fstate :=
    match fs with
    | [] => (None, f)
    | g :: fs' =>
        match g v (writer f) with
        | (Some ok, w) => (Some ok, FS w (fstyle f))
        | (None, w) => run_formatters fs' v (FS w (fstyle f))
        end
    end.

  (** The context part of [fmt_value], to_string.rs:408-411 and 311-317. *)
  Definition fmt_context (c : T) : act :=
    match print_context cfg with
    | None => ret
    | Some pc =>
        andthen (write_char c_lt)
          (andthen (fun f => let (ok, w) := pc c (writer f) in (FS w (fstyle f), ok)) (write_str (s2l "> ")))
    end.

  (** to_string.rs:407-416 *)
  Fixpoint fmt_value (v : value T) {struct v} : act :=
    match v with
    | Val d c =>
        andthen (fmt_context c)
          (fun f =>
             match run_formatters (custom_formatters cfg) v f with
             | (Some ok, f') => (f', ok)
             | (None, f') => fmt_valuedef fmt_value d f'
             end)
    end.

  (** [ToWriterBuilder::write], to_string.rs:244-258 *)
  Definition write_value (st : style) (v : value T) (w : W) : W * bool :=
    let (f, ok) := fmt_value v (FS w st) in (writer f, ok).
End Formatter.
Arguments config : clear implicits.
Arguments fstate : clear implicits.

(** The plain configurations: no custom formatters, no context ([ToWriterBuilder::new], to_string.rs:35-43). *)
Definition plain_cfg {T W} (ind lead : str) : config T W :=
  {| indent_by := ind; leading_indent := lead; custom_formatters := []; print_context := None |}.

(** Writing to a [String] never fails. *)
Definition string_wr (w : str) (s : str) : str * bool := (w ++ s, true).

(** Text produced by a builder with the given style and indents; [None] when formatting reports an error. *)
Definition to_text {T} (U : unicode) (ind lead : str) (st : style) (v : value T) : option str :=
  let (w, ok) := write_value U string_wr (plain_cfg ind lead) st v [] in if ok then Some w else None.

(** [Display]: to_string.rs:365-377 ([default_builder], indent two spaces).  [alternate] is [{:#}]. *)
Definition display {T} (U : unicode) (alternate : bool) (v : value T) : option str :=
  to_text U (s2l "  ") [] (if alternate then Pretty 0 else Normal) v.

(** ** [format_hex], custom_formatters/hex.rs:44-78 *)
Definition u4_to_hex (n : N) : option char :=
  nth_error (s2l "0123456789ABCDEF") (N.to_nat n).   (* [None] models the panic of [expect] *)

Section Hex.
  Context {T W : Type} (wr : W -> str -> W * bool).

  Definition is_byte_value (v : value T) : bool :=
    match v with Val (DPrim (PU128 n)) _ => n <? 256 | _ => false end.

  Fixpoint hex_loop (vals : list (value T)) (w : W) : W * bool :=
    match vals with
    | [] => (w, true)
    | Val (DPrim (PU128 n)) _ :: vals' =>
        let n := n mod 256 in    (* [as u8] *)
        match u4_to_hex (N.shiftr n 4), u4_to_hex (N.land n 15) with
        | Some hi, Some lo =>
            let (w1, ok) := wr w [hi] in
            if ok then let (w2, ok) := wr w1 [lo] in
              if ok then hex_loop vals' w2 else (w2, false)
            else (w1, false)
        | _, _ => (w, false)
        end
    | _ :: vals' => hex_loop vals' w
    end.

  Definition value_to_hex (vals : list (value T)) (w : W) : W * bool :=
    let (w1, ok) := wr w (s2l "0x") in if ok then hex_loop vals w1 else (w1, false).

  Definition format_hex (v : value T) (w : W) : option bool * W :=
    match vdef_of v with
    | DComposite (Unnamed vals) =>
        match vals with
        | [] => (None, w)
        | _ => if forallb is_byte_value vals then let (w', ok) := value_to_hex vals w in (Some ok, w')
               else (None, w)
        end
    | _ => (None, w)
    end.
End Hex.
