(** * DecodeWork: the decoder of /repo/src/scale_impls/decode.rs once more, with a count of its work.

    Every function is the one of Decode.v (same lines of decode.rs) and returns in addition
    - [calls]: how many times [decode_with_visitor] is called (decode.rs:40, and through [decode_item] at 80, 373, 381; scale-decode
      also calls it for the type inside a [Compact]);
    - [levels]: how many of these calls are active at the same time at most (the depth of Rust's recursion).
    Reading one primitive, string or bit sequence is part of the call it is for.  That the results are those of Decode.v is proved
    (Props_DecodeWork, C79). *)
From Verif Require Import Base Value Registry Spec_Scale Scale Decode.
Open Scope N_scope.

Record dwork : Type := DWork { calls : N; levels : N }.
Definition idle : dwork := DWork 0 0.
(** One after the other. *)
Definition then_ (a b : dwork) : dwork := DWork (calls a + calls b) (N.max (levels a) (levels b)).
(** Inside one more call. *)
Definition within_call (a : dwork) : dwork := DWork (1 + calls a) (1 + levels a).
Definition worked (A : Type) : Type := (dres A * dwork)%type.
(** No further call. *)
Definition alone {A} (r : dres A) : worked A := (r, idle).
(** The [?] operator. *)
Definition wbind {A B} (m : worked A) (k : A * bytes -> worked B) : worked B :=
  match fst m with
  | Ok a => (fst (k a), then_ (snd m) (snd (k a)))
  | Err e => (Err e, snd m)
  end.

Section Plain.
  Context {TId C : Type} (reg : TId -> resolution TId) (X : ext) (ctxf : TId -> C).

  (** decode.rs:79-82, 380-383. *)
  Fixpoint k_items (dec : TId -> bytes -> worked (value C)) (ts : list TId) (bs : bytes) : worked (list (value C)) :=
    match ts with
    | [] => alone (Ok ([], bs))
    | t :: ts' => wbind (dec t bs) (fun x => wbind (k_items dec ts' (snd x)) (fun y => alone (Ok (fst x :: fst y, snd y))))
    end.
  (** decode.rs:370-377. *)
  Fixpoint k_named (dec : TId -> bytes -> worked (value C)) (fs : list (field TId)) (bs : bytes) : worked (list (str * value C)) :=
    match fs with
    | [] => alone (Ok ([], bs))
    | (name, t) :: fs' =>
        wbind (dec t bs) (fun x => wbind (k_named dec fs' (snd x)) (fun y =>
          alone (Ok ((match name with Some n => n | None => [] end, fst x) :: fst y, snd y))))
    end.
  (** [visit_composite], decode.rs:357-386. *)
  Definition k_composite (dec : TId -> bytes -> worked (value C)) (fs : list (field TId)) (bs : bytes) : worked (composite (value C)) :=
    if (0 <? length fs)%nat && negb (has_unnamed fs)
    then wbind (k_named dec fs bs) (fun x => alone (Ok (Named (fst x), snd x)))
    else wbind (k_items dec (map snd fs) bs) (fun x => alone (Ok (Unnamed (fst x), snd x))).
  (** [to_unnamed_composite!], decode.rs:76-88. *)
  Definition k_unnamed (dec : TId -> bytes -> worked (value C)) (t : TId) (ts : list TId) (bs : bytes) : worked (value C) :=
    wbind (k_items dec ts bs) (fun x => alone (Ok (Val (DComposite (Unnamed (fst x))) (ctxf t), snd x))).

  (** [decode] of Decode.v (decode.rs:31-46, 181-354).  [fuel] bounds the depth of the model's recursion. *)
  Fixpoint kdecode (fuel : nat) (compact : bool) (t : TId) (bs : bytes) : worked (value C) :=
    match fuel with
    | O => alone (Err EHang)
    | S f =>
        let (r, n) :=
          match reg t with
          | ResErr => alone (Err ETypeResolving)
          | ResNotFound => alone (Err EIdNotFound)
          | ResTy (TPrim p) => alone (bind (read_prim (x_len X) PU256 compact p bs) (fun x => Ok (Val (DPrim (fst x)) (ctxf t), snd x)))
          | ResTy (TCompact t') => kdecode f true t' bs
          | ResTy (TComposite fs) =>
              if compact && negb (length fs =? 1)%nat then alone (Err ECannotCompact)
              else wbind (k_composite (kdecode f compact) fs bs) (fun x => alone (Ok (Val (DComposite (fst x)) (ctxf t), snd x)))
          | ResTy (TTuple ts) =>
              if compact && negb (length ts =? 1)%nat then alone (Err ECannotCompact)
              else k_unnamed (kdecode f compact) t ts bs
          | ResTy (TVariant vs) =>
              if compact then alone (Err ECannotCompact)
              else match bs with
                   | [] => alone (Err ENotEnough)
                   | idx :: bs' =>
                       match find (fun v => vi_index v =? idx) vs with
                       | None => alone (Err EVariantNotFound)
                       | Some v => wbind (k_composite (kdecode f false) (vi_fields v) bs')
                                     (fun x => alone (Ok (Val (DVariant (vi_name v) (fst x)) (ctxf t), snd x)))
                       end
                   end
          | ResTy (TSequence t') =>
              if compact then alone (Err ECannotCompact)
              else wbind (alone (compact_decode (x_len X) bs))
                     (fun x => k_unnamed (kdecode f false) t (repeat t' (N.to_nat (fst x))) (snd x))
          | ResTy (TArray t' n) =>
              if compact then alone (Err ECannotCompact)
              else k_unnamed (kdecode f false) t (repeat t' (N.to_nat n)) bs
          | ResTy (TBitSeq st o) =>
              if compact then alone (Err ECannotCompact)
              else alone (bind (decode_bits (x_maxbits X) st o bs) (fun x => Ok (Val (DBits (fst x)) (ctxf t), snd x)))
          end in
        (r, within_call n)
    end.
End Plain.
