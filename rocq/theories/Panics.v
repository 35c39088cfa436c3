(** * Panics: the functions that contain an [expect], with the panic made explicit (C99).

    What can panic in the crate outside of tests: the [expect]s of decode.rs:373, encode.rs:244 and 252, deserializer.rs:382 (here),
    serializer.rs:370 (SerdeCalls.v, C70), hex.rs:77, the slices and arithmetic of the custom parsers (ByteParsers.v, C86), the addition of
    locations in from_string.rs:246-249 (here), and [Vec::with_capacity] when there is no room (Alloc.v and SerdeAlloc.v, C73 and C87). *)
From Verif Require Import Base Value Chars Registry Spec_Scale Scale Decode Encode Serde Parse ByteParsers.
Local Open Scope N_scope.

(** [Option::expect]. *)
Definition expect {A} (o : option A) : ran A := match o with Some a => Ran a | None => Panic end.

Section DecodeP.
  Context {TId C : Type} (reg : TId -> resolution TId) (X : ext) (ctxf : TId -> C).
  Definition pres (A : Type) : Type := ran (dres A).
  (** [?] *)
  Definition pbind {A B} (r : pres A) (k : A * bytes -> pres B) : pres B :=
    rbind r (fun d => match d with Ok x => k x | Err e => Ran (Err e) end).

  (** decode.rs:79-82 and 380-383. *)
  Fixpoint decode_items_p (dec : TId -> bytes -> pres (value C)) (ts : list TId) (bs : bytes) : pres (list (value C)) :=
    match ts with
    | [] => Ran (Ok ([], bs))
    | t :: ts' => pbind (dec t bs) (fun x => pbind (decode_items_p dec ts' (snd x)) (fun y => Ran (Ok (fst x :: fst y, snd y))))
    end.

  (** scale-decode [Composite::peek_name]: the name of the next field, if there is one and it has a name. *)
  Definition peek_name (fs : list (field TId)) : option str := match fs with (name, _) :: _ => name | [] => None end.

  (** The loop of decode.rs:369-377: [name] was peeked before the item is decoded, is unwrapped after that (373), and the next one
      is peeked then (375). *)
  Fixpoint decode_named_p (dec : TId -> bytes -> pres (value C)) (name : option str) (fs : list (field TId)) (bs : bytes) : pres (list (str * value C)) :=
    match fs with
    | [] => Ran (Ok ([], bs))
    | (_, t) :: fs' =>
        pbind (dec t bs) (fun x => rbind (expect name) (fun n =>
          pbind (decode_named_p dec (peek_name fs') fs' (snd x)) (fun y => Ran (Ok ((n, fst x) :: fst y, snd y)))))
    end.

  (** decode.rs:357-386. *)
  Definition visit_composite_p (dec : TId -> bytes -> pres (value C)) (fs : list (field TId)) (bs : bytes) : pres (composite (value C)) :=
    if (0 <? length fs)%nat && negb (has_unnamed fs)
    then pbind (decode_named_p dec (peek_name fs) fs bs) (fun x => Ran (Ok (Named (fst x), snd x)))
    else pbind (decode_items_p dec (map snd fs) bs) (fun x => Ran (Ok (Unnamed (fst x), snd x))).

  Definition to_unnamed_p (dec : TId -> bytes -> pres (value C)) (t : TId) (ts : list TId) (bs : bytes) : pres (value C) :=
    pbind (decode_items_p dec ts bs) (fun x => Ran (Ok (Val (DComposite (Unnamed (fst x))) (ctxf t), snd x))).

  (** decode.rs:31-46 and 181-354, as in Decode.v. *)
  Fixpoint decode_p (fuel : nat) (compact : bool) (t : TId) (bs : bytes) : pres (value C) :=
    match fuel with
    | O => Ran (Err EHang)
    | S f =>
        match reg t with
        | ResErr => Ran (Err ETypeResolving)
        | ResNotFound => Ran (Err EIdNotFound)
        | ResTy (TPrim p) => pbind (Ran (read_prim (x_len X) PU256 compact p bs)) (fun x => Ran (Ok (Val (DPrim (fst x)) (ctxf t), snd x)))
        | ResTy (TCompact t') => decode_p f true t' bs
        | ResTy (TComposite fs) =>
            if compact && negb (length fs =? 1)%nat then Ran (Err ECannotCompact)
            else pbind (visit_composite_p (decode_p f compact) fs bs) (fun x => Ran (Ok (Val (DComposite (fst x)) (ctxf t), snd x)))
        | ResTy (TTuple ts) =>
            if compact && negb (length ts =? 1)%nat then Ran (Err ECannotCompact)
            else to_unnamed_p (decode_p f compact) t ts bs
        | ResTy (TVariant vs) =>
            if compact then Ran (Err ECannotCompact)
            else match bs with
                 | [] => Ran (Err ENotEnough)
                 | idx :: bs' =>
                     match find (fun v => vi_index v =? idx) vs with
                     | None => Ran (Err EVariantNotFound)
                     | Some v => pbind (visit_composite_p (decode_p f false) (vi_fields v) bs')
                                   (fun x => Ran (Ok (Val (DVariant (vi_name v) (fst x)) (ctxf t), snd x)))
                     end
                 end
        | ResTy (TSequence t') =>
            if compact then Ran (Err ECannotCompact)
            else pbind (Ran (compact_decode (x_len X) bs)) (fun x => to_unnamed_p (decode_p f false) t (repeat t' (N.to_nat (fst x))) (snd x))
        | ResTy (TArray t' n) =>
            if compact then Ran (Err ECannotCompact)
            else to_unnamed_p (decode_p f false) t (repeat t' (N.to_nat n)) bs
        | ResTy (TBitSeq st o) =>
            if compact then Ran (Err ECannotCompact)
            else pbind (Ran (decode_bits (x_maxbits X) st o bs)) (fun x => Ran (Ok (Val (DBits (fst x)) (ctxf t), snd x)))
        end
    end.
End DecodeP.

(** encode.rs:231-270: [fields.len()] is looked at, then [fields.next()] is unwrapped.  (That [len] of an [ExactSizeIterator] is the number
    of items it gives is the contract of that trait; the iterators are those of the caller's resolver.) *)
Fixpoint find_single_p {TId} (reg : TId -> resolution TId) (fuel : nat) (t : TId) (changed : bool) : ran (option (TId * bool)) :=
  match fuel with
  | O => Ran None
  | S f =>
      match reg t with
      | ResTy (TTuple ts) => if (length ts =? 1)%nat then rbind (expect (hd_error ts)) (fun t' => find_single_p reg f t' true) else Ran (Some (t, changed))
      | ResTy (TComposite fs) => if (length fs =? 1)%nat then rbind (expect (hd_error fs)) (fun fd => find_single_p reg f (snd fd) true) else Ran (Some (t, changed))
      | ResTy (TArray t' n) => if n =? 1 then find_single_p reg f t' true else Ran (Some (t, changed))
      | _ => Ran (Some (t, changed))
      end
  end.

(** deserializer.rs:375-394: the length is looked at, then [vs.pop()] (the last one) is unwrapped. *)
Definition pop {A} (l : list A) : option A := hd_error (rev l).
Definition deserialize_option_p {T} (d : vdef (value T)) : ran (result (event T) derr) :=
  match d with
  | DVariant n (Unnamed vs) =>
      if str_eqb n (s2l "Some") && Nat.eqb (length vs) 1
      then rbind (expect (pop vs)) (fun v => Ran (Ok (VSome (SrcValue v))))
      else if str_eqb n (s2l "None") && Nat.eqb (length vs) 0 then Ran (Ok VNone)
      else Ran (Ok (vdef_any d))
  | _ => Ran (Ok (vdef_any d))
  end.

(** from_string.rs:246-249 with overflow checks; [usize] is below [2 ^ bits]. *)
Definition usize_add (bits a b : N) : ran N := if a + b <? 2 ^ bits then Ran (a + b) else Panic.
Definition shift_err_p (bits start_offset : N) (e : perr) : ran perr :=
  rbind (usize_add bits start_offset (start_loc e)) (fun st =>
  rbind (match end_loc e with Some l => rbind (usize_add bits start_offset l) (fun l' => Ran (Some l')) | None => Ran None end) (fun en =>
  Ran (PErr st en (err e)))).
