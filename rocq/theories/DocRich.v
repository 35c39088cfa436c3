(** * DocRich: [deserialize.rs] and [bitvec_helpers.rs] again, reading documents of formats with newtypes and with keys that
    need not be strings.

    Serde.v has documents whose keys and variant names are strings and which have no newtypes; [embed] maps those here, and
    [C96_agrees] says that the two models read them alike.  [strict]: whether the format reports an error for a map that is
    not read to its end (serde_json does; serde's own [MapDeserializer], unless asked to, does not). *)
From Verif Require Import Base Value Scale Serde.

Inductive rdoc : Type :=
| RBool (b : bool)
| RInt (sg : bool) (w : N) (z : Z)
| RChar (c : char)
| RStr (s : str)
| RSeq (l : list rdoc)
| RMap (l : list (rdoc * rdoc))
| RFloat
| RBytes (b : bytes)
| RUnit
| RNone
| RSome (d : rdoc)
| REnum (n : rdoc) (p : option rdoc)      (* [p]: what [newtype_variant] finds, [None] for a variant without contents *)
| RNewtype (d : rdoc).

(** [String::deserialize] (serde): strings, chars, bytes in UTF-8. *)
Definition rtext (d : rdoc) : result str derr :=
  match d with
  | RStr s => Ok s
  | RChar c => Ok [c]
  | RBytes b => match utf8_decode b with Some s => Ok s | None => Err DRange end
  | _ => Err DType
  end.

(** [Vec<bool>::deserialize] (serde), asked for in bitvec_helpers.rs:79. *)
Definition rbool (d : rdoc) : result bool derr := match d with RBool b => Ok b | _ => Err DType end.
Definition rbools (d : rdoc) : result (list bool) derr := match d with RSeq l => mapM rbool l | _ => Err DType end.

(** [u8::deserialize] (serde). *)
Definition ru8 (d : rdoc) : result N derr :=
  match d with
  | RInt sg w z => if (w =? 128)%N then Err DType else if in_int false 8 z then Ok (Z.to_N z) else Err DRange
  | _ => Err DType
  end.

Section Read.
  Context (strict : bool).

  (** [ValueDefVisitor], deserialize.rs:307-380, with [MapOrBitSeqVisitor::visit_map], bitvec_helpers.rs:65-99;
      [CompositeVisitor], deserialize.rs:161-211. *)
  Fixpoint rvalue (d : rdoc) : result (value unit) derr :=
    match d with
    | RBool b => Ok (vbool b)                                                               (* 314-330 with 106-131 *)
    | RInt true _ z => Ok (vi128 z)
    | RInt false _ z => Ok (vu128 (Z.to_N z))
    | RChar c => Ok (vchar c)
    | RStr s => Ok (vstring s)
    | RFloat => Err DType
    | RBytes b => Ok (unnamed_composite (map vu128 b))                                      (* 332-336 with 168-174 *)
    | RUnit => Ok (unnamed_composite [])                                                    (* 332-336 with 176-181 *)
    | RNone => Ok (unnamed_variant (s2l "None") [])                                         (* 338-343 *)
    | RSome x => rmap (fun v => unnamed_variant (s2l "Some") [v]) (rvalue x)                (* 345-350 with 237-245 *)
    | RNewtype x => rvalue x                                                                (* 352-357 *)
    | RSeq l => rmap unnamed_composite (mapM rvalue l)                                      (* 359-364 with 190-199 *)
    | RMap [] => Ok (named_composite [])                                                    (* bitvec_helpers.rs:70-74 *)
    | RMap ((k, x) :: l) =>
        bind (rtext k) (fun s =>
        if str_eqb s bitvec_key then                                                        (* 77-86 *)
          bind (rbools x) (fun b => if strict && negb (Nat.eqb (length l) 0) then Err DLength else Ok (bit_sequence b))
        else                                                                                (* 88-97 *)
          bind (rvalue x) (fun v =>
          rmap (fun vs => named_composite ((s, v) :: vs))
               (mapM (fun kx => match kx with (k', x') => bind (rtext k') (fun s' => rmap (pair s') (rvalue x')) end) l)))
    | REnum n p =>                                                                          (* 374-379 with 222-235 *)
        bind (rtext n) (fun s => match p with Some x => rmap (fun c => Val (DVariant s c) tt) (rfields x) | None => Err DType end)
    end
  (** [Composite::deserialize], deserialize.rs:68-75, 161-211. *)
  with rfields (d : rdoc) : result (composite (value unit)) derr :=
    match d with
    | RBytes b => Ok (Unnamed (map vu128 b))                                                (* 168-174 *)
    | RUnit => Ok (Unnamed [])                                                              (* 176-181 *)
    | RNewtype x => rfields x                                                               (* 183-188 *)
    | RSeq l => rmap Unnamed (mapM rvalue l)                                                (* 190-199 *)
    | RMap l =>                                                                             (* 201-210 *)
        rmap Named (mapM (fun kx => match kx with (k, x) => bind (rtext k) (fun s => rmap (pair s) (rvalue x)) end) l)
    | _ => Err DType
    end.

  (** [VariantVisitor], deserialize.rs:215-287.  It has no [visit_newtype_struct]. *)
  Fixpoint rvariant_fields (l : list (rdoc * rdoc)) (name : option str) (vals : option (composite (value unit)))
      : result (option str * option (composite (value unit))) derr :=
    match l with
    | [] => Ok (name, vals)
    | (k, x) :: l' =>
        bind (rtext k) (fun s =>
        if str_eqb s (s2l "name") then bind (rtext x) (fun n => rvariant_fields l' (Some n) vals)
        else if str_eqb s (s2l "values") then bind (rfields x) (fun c => rvariant_fields l' name (Some c))
        else Err DUnknown)
    end.
  Definition rvariant (d : rdoc) : result (str * composite (value unit)) derr :=
    match d with
    | REnum n p => bind (rtext n) (fun s => match p with Some x => rmap (pair s) (rfields x) | None => Err DType end)
    | RSome x => rmap (fun v => (s2l "Some", Unnamed [v])) (rvalue x)
    | RNone => Ok (s2l "None", Unnamed [])
    | RMap l => bind (rvariant_fields l None None) (fun nv => match nv with (Some n, Some c) => Ok (n, c) | _ => Err DCustom end)
    | _ => Err DType
    end.
End Read.

(** [PrimitiveVisitor], deserialize.rs:99-157.  It has no [visit_newtype_struct]. *)
Definition rprim (d : rdoc) : result prim derr :=
  match d with
  | RBool b => Ok (PBool b)
  | RInt true _ z => Ok (PI128 z)
  | RInt false _ z => Ok (PU128 (Z.to_N z))
  | RChar c => Ok (PChar c)
  | RStr s => Ok (PString s)
  | RBytes b => if Nat.eqb (length b) 32 then Ok (PU256 b) else Err DType
  | RSeq l => bind (mapM ru8 l) (fun b => if Nat.eqb (length b) 32 then Ok (PU256 b) else Err DLength)
  | _ => Err DType
  end.

(** The documents of Serde.v among these. *)
Fixpoint embed (d : doc) : rdoc :=
  match d with
  | FBool b => RBool b
  | FInt sg w z => RInt sg w z
  | FChar c => RChar c
  | FStr s => RStr s
  | FSeq l => RSeq (map embed l)
  | FMap l => RMap (map (fun kd => match kd with (k, x) => (RStr k, embed x) end) l)
  | FFloat => RFloat
  | FBytes b => RBytes b
  | FUnit => RUnit
  | FNone => RNone
  | FSome x => RSome (embed x)
  | FEnum n p => REnum (RStr n) (match p with Some x => Some (embed x) | None => None end)
  end.
