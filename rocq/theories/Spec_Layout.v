(** * Spec_Layout: the exact text of a value, as documented, without reference to the formatter.

    One-line text is given by plain concatenation.  Pretty text is given as a list of lines, each with its depth; how deep
    a line is indented is only decided when the lines are put together. *)
From Verif Require Import Base Value Chars Spec_Grammar Spec_Hex Fmt.
Local Open Scope N_scope.

(** Joining with a separator. *)
Fixpoint join (sep : str) (l : list str) : str :=
  match l with
  | [] => []
  | [a] => a
  | a :: l' => a ++ sep ++ join sep l'
  end.

(** All or nothing. *)
Fixpoint every {A} (l : list (option A)) : option (list A) :=
  match l with
  | [] => Some []
  | None :: _ => None
  | Some a :: l' => match every l' with Some r => Some (a :: r) | None => None end
  end.
Definition omap {A B} (f : A -> B) (o : option A) : option B := match o with Some a => Some (f a) | None => None end.

(** Quoted literals: characters of the [escapes] table are written with a backslash, all others stand for themselves. *)
Definition escaped (c : char) : str :=
  match find (fun p => fst p =? c) escapes with Some p => [c_bslash; snd p] | None => [c] end.
Definition string_literal (s : str) : str := [c_dquote] ++ concat (map escaped s) ++ [c_dquote].

(** Numbers are written as std writes them ([show_N], see C20); 256-bit numbers have no text. *)
Definition leaf_text (p : prim) : option str :=
  match p with
  | PBool true => Some (s2l "true")
  | PBool false => Some (s2l "false")
  | PChar c => Some ([c_squote] ++ escaped c ++ [c_squote])
  | PString s => Some (string_literal s)
  | PU128 n => Some (show_N n)
  | PI128 z => Some ((if (z <? 0)%Z then s2l "-" else []) ++ show_N (Z.abs_N z))
  | PU256 _ | PI256 _ => None
  end.
Definition bits_text (b : list bool) : str := s2l "<" ++ map (fun x : bool => if x then c_1 else c_0) b ++ s2l ">".

(** A name that is written without quotes: a letter, then letters, digits and underscores. *)
Definition bare_name (U : unicode) (s : str) : bool :=
  match s with
  | c :: r => is_alphabetic U c && forallb (fun c => is_alphanumeric U c || (c =? c_under)) r
  | [] => false
  end.

(** What a custom formatter says about a value. *)
Inductive answer : Type := Declines | Writes (s : str) | Fails.

Section Layout.
  Context {T : Type}.
  (** Which names may be written without quotes. *)
  Context (bare : str -> bool).
  (** The first custom formatter that does not decline decides. *)
  Context (customs : list (value T -> answer)).
  (** The context printer, if there is one. *)
  Context (ctx_text : option (T -> str)).

  Fixpoint first_answer (fs : list (value T -> answer)) (v : value T) : answer :=
    match fs with
    | [] => Declines
    | f :: fs' => match f v with Declines => first_answer fs' v | a => a end
    end.

  Definition ctx_prefix (c : T) : str :=
    match ctx_text with None => [] | Some f => s2l "<" ++ f c ++ s2l "> " end.
  Definition field_name (n : str) : str := if bare n then n else string_literal n.
  Definition variant_name (n : str) : str := if bare n then n else s2l "v" ++ string_literal n.

  (** ** One line; [sp] is the optional space. *)
  Section OneLine.
    Context (sp : str).
    Definition round (l : list str) : str := s2l "(" ++ join (s2l "," ++ sp) l ++ s2l ")".
    Definition curly (l : list str) : str :=
      match l with [] => s2l "{}" | _ => s2l "{" ++ sp ++ join (s2l "," ++ sp) l ++ sp ++ s2l "}" end.
    Definition pair_text (n v : str) : str := field_name n ++ s2l ":" ++ sp ++ v.

    Fixpoint one_line (v : value T) : option str :=
      match v with
      | Val d c =>
          omap (fun t => ctx_prefix c ++ t)
            (match first_answer customs v with
             | Writes s => Some s
             | Fails => None
             | Declines =>
                 match d with
                 | DPrim p => leaf_text p
                 | DBits b => Some (bits_text b)
                 | DComposite (Unnamed l) => omap round (every (map one_line l))
                 | DComposite (Named l) => omap curly (every (map (fun kv => omap (pair_text (fst kv)) (one_line (snd kv))) l))
                 | DVariant n (Unnamed l) => omap (fun t => variant_name n ++ sp ++ round t) (every (map one_line l))
                 | DVariant n (Named l) =>
                     omap (fun t => variant_name n ++ sp ++ curly t)
                       (every (map (fun kv => omap (pair_text (fst kv)) (one_line (snd kv))) l))
                 end
             end)
      end.
  End OneLine.

  (** ** Many lines: (depth, text). *)
  Definition line : Type := nat * str.
  Definition prefix_first (p : str) (ls : list line) : list line :=
    match ls with [] => [] | (n, s) :: r => (n, p ++ s) :: r end.
  Fixpoint suffix_last (q : str) (ls : list line) : list line :=
    match ls with [] => [] | [(n, s)] => [(n, s ++ q)] | x :: r => x :: suffix_last q r end.
  Definition deeper (ls : list line) : list line := map (fun x => (S (fst x), snd x)) ls.
  (** A comma at the end of every item but the last. *)
  Fixpoint with_commas (items : list (list line)) : list line :=
    match items with
    | [] => []
    | [a] => a
    | a :: r => suffix_last (s2l ",") a ++ with_commas r
    end.
  Definition block (o c : str) (items : list (list line)) : list line :=
    match items with [] => [(O, o ++ c)] | _ => [(O, o)] ++ deeper (with_commas items) ++ [(O, c)] end.

  Fixpoint lines (v : value T) : option (list line) :=
    match v with
    | Val d c =>
        omap (prefix_first (ctx_prefix c))
          (match first_answer customs v with
           | Writes s => Some [(O, s)]
           | Fails => None
           | Declines =>
               match d with
               | DPrim p => omap (fun s => [(O, s)]) (leaf_text p)
               | DBits b => Some [(O, bits_text b)]
               | DComposite (Unnamed l) => omap (block (s2l "(") (s2l ")")) (every (map lines l))
               | DComposite (Named l) =>
                   omap (block (s2l "{") (s2l "}"))
                     (every (map (fun kv => omap (prefix_first (field_name (fst kv) ++ s2l ": ")) (lines (snd kv))) l))
               | DVariant n (Unnamed l) =>
                   omap (fun b => prefix_first (variant_name n ++ s2l " ") (block (s2l "(") (s2l ")") b)) (every (map lines l))
               | DVariant n (Named l) =>
                   omap (fun b => prefix_first (variant_name n ++ s2l " ") (block (s2l "{") (s2l "}") b))
                     (every (map (fun kv => omap (prefix_first (field_name (fst kv) ++ s2l ": ")) (lines (snd kv))) l))
               end
           end)
    end.

  (** Every line but the first starts with a line break, the leading indent and one [indent] per level. *)
  Definition new_line (lead indent : str) (start : nat) (x : line) : str :=
    [c_nl] ++ lead ++ concat (repeat indent (start + fst x)) ++ snd x.
  Definition put_together (lead indent : str) (start : nat) (ls : list line) : str :=
    match ls with [] => [] | x :: r => snd x ++ concat (map (new_line lead indent start) r) end.
End Layout.

(** The formatter [format_hex] as documented: a non-empty list of bytes is written as a hex literal. *)
Definition byte_number {T} (v : value T) : option byte :=
  match v with Val (DPrim (PU128 n)) _ => if n <? 256 then Some n else None | _ => None end.
Definition hex_answer {T} (v : value T) : answer :=
  match v with
  | Val (DComposite (Unnamed (a :: l))) _ =>
      match every (map byte_number (a :: l)) with
      | Some bs => Writes (s2l "0x" ++ flat_map upper_hex bs)
      | None => Declines
      end
  | _ => Declines
  end.
