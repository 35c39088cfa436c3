(** * Cursor: decoding a list of fields with the caller's cursor, panics and scale-decode's item iterator made explicit.

    Decode.v models the two functions for decoding fields (decode.rs:50-73 and 90-111) by one that returns a result and the bytes left.
    They differ in what they do when decoding fails; here both are modelled statement by statement. *)
From Verif Require Import Base Value Registry Spec_Scale Scale Decode.

(** What a call does to its caller: it panics, or returns a result with the caller's cursor ([input: &mut &[u8]]) where it is now. *)
Inductive outcome (A : Type) : Type := Panics | Returns (r : result A derr) (cursor : bytes).
Arguments Panics {A}. Arguments Returns {A} r cursor.

Section Cursor.
  Context {TId C : Type} (dec : TId -> bytes -> dres (value C)).
  (** Skipping one item ([IgnoreVisitor] of scale-decode); nothing is assumed about it here. *)
  Context (ignore : TId -> bytes -> dres unit).
  (** Whether the iterator offers nothing more after an item has failed ([next_field_idx = fields.len()] in scale-decode);
      otherwise it offers the same item again. *)
  Context (fuses : bool).

  (** [scale_decode::visitor::types::Composite]: the bytes and the fields not decoded yet. *)
  Record items : Type := Items { it_bytes : bytes; it_fields : list (field TId) }.

  (** [Composite::decode_item]. *)
  Definition decode_item {V} (one : TId -> bytes -> dres V) (it : items) : option (result V derr) * items :=
    match it_fields it with
    | [] => (None, it)
    | (_, t) :: fs =>
        match one t (it_bytes it) with
        | Ok (v, r) => (Some (Ok v), Items r fs)
        | Err e => (Some (Err e), if fuses then Items (it_bytes it) [] else it)
        end
    end.
  (** [Composite::peek_name], [Composite::remaining]. *)
  Definition peek_name (it : items) : option str := match it_fields it with [] => None | f :: _ => fst f end.
  Definition remaining (it : items) : nat := length (it_fields it).
  (** [Composite::skip_decoding]: ignore items until there is none, stopping at the first error.  [fuel] bounds the turns of the loop. *)
  Fixpoint skip_decoding (fuel : nat) (it : items) : result unit derr * items :=
    match fuel with
    | O => (Err EHang, it)
    | S f => match decode_item ignore it with
             | (None, it') => (Ok tt, it')
             | (Some (Err e), it') => (Err e, it')
             | (Some (Ok _), it') => skip_decoding f it'
             end
    end.

  (** What [visit_composite] does: a panic, or a result and the iterator afterwards. *)
  Inductive visited : Type := VPanic | VDone (r : result (composite (value C)) derr) (it : items).

  (** decode.rs:370-376; [name] and [vals] are the variables of the loop, [fuel] bounds its turns. *)
  Fixpoint visit_named (fuel : nat) (name : option str) (vals : list (str * value C)) (it : items) : visited :=
    match fuel with
    | O => VDone (Err EHang) it
    | S f => match decode_item dec it with
             | (None, it') => VDone (Ok (Named vals)) it'
             | (Some (Err e), it') => VDone (Err e) it'
             | (Some (Ok v), it') =>
                 match name with
                 | None => VPanic    (* the [expect] of line 373 *)
                 | Some n => visit_named f (peek_name it') (vals ++ [(n, v)]) it'
                 end
             end
    end.
  (** decode.rs:379-383. *)
  Fixpoint visit_unnamed (fuel : nat) (vals : list (value C)) (it : items) : visited :=
    match fuel with
    | O => VDone (Err EHang) it
    | S f => match decode_item dec it with
             | (None, it') => VDone (Ok (Unnamed vals)) it'
             | (Some (Err e), it') => VDone (Err e) it'
             | (Some (Ok v), it') => visit_unnamed f (vals ++ [v]) it'
             end
    end.
  (** [visit_composite], decode.rs:357-386. *)
  Definition visit (it : items) : visited :=
    let fuel := S (remaining it) in
    if (0 <? remaining it)%nat && negb (has_unnamed (it_fields it))
    then visit_named fuel (peek_name it) [] it
    else visit_unnamed fuel [] it.

  (** [decode_composite_as_fields], decode.rs:50-73: the [?] of line 68 leaves before the cursor is touched. *)
  Definition decode_composite_as_fields (input : bytes) (fs : list (field TId)) : outcome (composite (value C)) :=
    match visit (Items input fs) with
    | VPanic => Panics
    | VDone (Err e) _ => Returns (Err e) input
    | VDone (Ok c) it =>
        match skip_decoding (S (remaining it)) it with
        | (Err e, _) => Returns (Err e) input
        | (Ok _, it') => Returns (Ok c) (it_bytes it')
        end
    end.

  (** [DecodeAsFields for Composite<()>], decode.rs:90-111: the result is looked at only after the cursor was moved. *)
  Definition composite_decode_as_fields (input : bytes) (fs : list (field TId)) : outcome (composite (value C)) :=
    match visit (Items input fs) with
    | VPanic => Panics
    | VDone val it =>
        match skip_decoding (S (remaining it)) it with
        | (Err e, _) => Returns (Err e) input
        | (Ok _, it') => Returns val (it_bytes it')
        end
    end.

  (** [DecodeAsFields for Value<()>], decode.rs:113-122; the context is given (it is [()] in Rust). *)
  Definition value_decode_as_fields (ctx : C) (input : bytes) (fs : list (field TId)) : outcome (value C) :=
    match composite_decode_as_fields input fs with
    | Panics => Panics
    | Returns (Err e) cur => Returns (Err e) cur
    | Returns (Ok c) cur => Returns (Ok (Val (DComposite c) ctx)) cur
    end.
End Cursor.
