(** * Spec_Fmt: what the formatting properties say, without reference to the formatter. *)
From Verif Require Import Base Value Chars Spec_Grammar.
Local Open Scope N_scope.

(** Handing a list of pieces to a sink, stopping at the first failure. *)
Fixpoint feed {W} (wr : W -> str -> W * bool) (w : W) (pieces : list str) : W * bool :=
  match pieces with
  | [] => (w, true)
  | p :: ps => let (w', ok) := wr w p in if ok then feed wr w' ps else (w', false)
  end.

(** 256-bit primitives have no text form. *)
Fixpoint no_256 {T} (v : value T) : bool :=
  match v with
  | Val d _ =>
      match d with
      | DComposite (Named l) | DVariant _ (Named l) => forallb (fun kv => no_256 (snd kv)) l
      | DComposite (Unnamed l) | DVariant _ (Unnamed l) => forallb no_256 l
      | DPrim (PU256 _) | DPrim (PI256 _) => false
      | _ => true
      end
  end.

(** Text syntax cannot express a non-negative signed number: it is read as unsigned. *)
Definition unsign_prim (p : prim) : prim :=
  match p with PI128 z => if (0 <=? z)%Z then PU128 (Z.to_N z) else PI128 z | p => p end.

Fixpoint unsigned_form {T} (v : value T) : value unit :=
  match v with
  | Val d _ =>
      Val (match d with
           | DComposite (Named l) => DComposite (Named (map (fun kv => (fst kv, unsigned_form (snd kv))) l))
           | DComposite (Unnamed l) => DComposite (Unnamed (map unsigned_form l))
           | DVariant n (Named l) => DVariant n (Named (map (fun kv => (fst kv, unsigned_form (snd kv))) l))
           | DVariant n (Unnamed l) => DVariant n (Unnamed (map unsigned_form l))
           | DBits b => DBits b
           | DPrim p => DPrim (unsign_prim p)
           end) tt
  end.

(** A name beginning with [true] or [false] is read as a boolean when it is printed bare. *)
Fixpoint has_prefix (p s : str) : bool :=
  match p, s with
  | [], _ => true
  | c :: p', x :: s' => (c =? x) && has_prefix p' s'
  | _, [] => false
  end.
Definition bool_like (n : str) : bool := has_prefix (s2l "true") n || has_prefix (s2l "false") n.

(** No 256-bit primitive, no variant with a bool-like name that would be printed bare, numbers within 128 bits. *)
Fixpoint text_ok (bare : str -> bool) {T} (v : value T) : bool :=
  match v with
  | Val d _ =>
      match d with
      | DComposite (Named l) => forallb (fun kv => text_ok bare (snd kv)) l
      | DComposite (Unnamed l) => forallb (text_ok bare) l
      | DVariant n (Named l) => negb (bare n && bool_like n) && forallb (fun kv => text_ok bare (snd kv)) l
      | DVariant n (Unnamed l) => negb (bare n && bool_like n) && forallb (text_ok bare) l
      | DPrim (PU256 _) | DPrim (PI256 _) => false
      | DPrim p => prim_wf p
      | DBits _ => true
      end
  end.

(** Removing white space outside quoted literals.  [q] is the open quote, if any; in a literal a backslash protects the
    next character. *)
Inductive quote_state : Type := Outside | Inside (q : char) | Escaped (q : char).
Fixpoint strip (st : quote_state) (s : str) : str :=
  match s with
  | [] => []
  | c :: s' =>
      match st with
      | Outside =>
          if is_whitespace c then strip Outside s'
          else if (c =? c_dquote) || (c =? c_squote) then c :: strip (Inside c) s'
          else c :: strip Outside s'
      | Inside q =>
          if c =? c_bslash then c :: strip (Escaped q) s'
          else if c =? q then c :: strip Outside s'
          else c :: strip (Inside q) s'
      | Escaped q => c :: strip (Inside q) s'
      end
  end.
Definition strip_spaces (s : str) : str := strip Outside s.
