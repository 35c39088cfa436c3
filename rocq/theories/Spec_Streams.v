(** * Spec_Streams: a client that keeps many values in one place, one behind the other: bytes in a buffer, or lines in a text. *)
From Verif Require Import Base Value Chars Parse Fmt Registry Scale Encode Decode.
Open Scope N_scope.

Section Bytes.
  Context {TId T C : Type} (reg : TId -> resolution TId) (X : ext).

  (** [for (v, t) in jobs { let n = out.len(); if v.encode_as_type_to(t, reg, &mut out).is_err() { out.truncate(n) } }]:
      which of them were written, and the buffer. *)
  Fixpoint write_all (F : nat) (jobs : list (value T * TId)) (out : bytes) : list bool * bytes :=
    match jobs with
    | [] => ([], out)
    | (v, t) :: js =>
        match encode reg X F v t out with
        | (SOk, out') => let (oks, o) := write_all F js out' in (true :: oks, o)
        | (_, out') => let (oks, o) := write_all F js (firstn (length out) out') in (false :: oks, o)
        end
    end.
  (** The jobs that were written. *)
  Definition kept {A} (jobs : list A) (oks : list bool) : list A := map fst (filter snd (combine jobs oks)).

  (** [for t in ts { ws.push(decode_as_type(&mut cursor, t, reg)?) }]: the values read, the bytes not yet consumed by a successful read, and the error
      that ended the loop, if any. *)
  Fixpoint read_all (ctxf : TId -> C) (fuel : nat) (ts : list TId) (bs : bytes) : list (value C) * bytes * option derr :=
    match ts with
    | [] => ([], bs, None)
    | t :: ts' =>
        match decode_as_type reg X ctxf fuel t bs with
        | Ok (w, bs') => let '(ws, r, e) := read_all ctxf fuel ts' bs' in (w :: ws, r, e)
        | Err e => ([], bs, Some e)
        end
    end.
End Bytes.

(** [for v in vs { writeln!(text, "{}", v) }] with some style of layout for each. *)
Definition newline : char := 10.
Fixpoint print_lines {T} (U : unicode) (ind lead : str) (vs : list (style * value T)) : option str :=
  match vs with
  | [] => Some []
  | (st, v) :: vs' =>
      match to_text U ind lead st v, print_lines U ind lead vs' with
      | Some t, Some rest => Some (t ++ newline :: rest)
      | _, _ => None
      end
  end.
(** [while !text.is_empty() { let (v, rest) = from_str(text); vs.push(v?); text = rest.strip_prefix('\n')? }], at most [n] times: the values read and
    the text left over. *)
Fixpoint parse_lines (U : unicode) (n : nat) (text : str) : list (value unit) * str :=
  match n, text with
  | S n', _ :: _ =>
      match from_str U text with
      | (Ok v, c :: rest) => if c =? newline then let (vs, r) := parse_lines U n' rest in (v :: vs, r) else ([], text)
      | _ => ([], text)
      end
  | _, _ => ([], text)
  end.
