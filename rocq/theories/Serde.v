(** * Serde: model of [/repo/src/serde_impls] and of the entry points [to_value]/[from_value] (lib.rs:104-108, 149-152).

    serde itself is a dependency and is modelled by what its traits fix:
    - a [Serialize] impl is the tree of calls it makes on its [Serializer], i.e. a term of the serde data model ([sd]);
    - a [Deserializer] is a function from the hint it is called with ([hint], one per [deserialize_*] method) to the
      [Visitor] method it calls back ([event]);
    - a [Deserialize] impl (those of std types and those [#[derive(Deserialize)]] writes) is a hint together with what
      its visitor does with each event ([de]).
    Error texts are not modelled, only the error's kind. *)
From Verif Require Import Base Value Scale.
From Verif Require Spec_Scale.

Inductive derr : Type :=
| DType        (* a visitor method that is not implemented: invalid_type *)
| DRange       (* invalid_value: a number that does not fit, a string that is not one char *)
| DLength      (* invalid_length *)
| DUnknown     (* unknown_field / unknown_variant *)
| DMissing     (* missing_field *)
| DDuplicate   (* duplicate_field *)
| DCustom      (* messages written in deserializer.rs / deserialize.rs *)
| DHang.       (* out of fuel; proved unreachable *)

(** ** Documents: what a lossless self-describing format (a JSON-like tree) can hold.  Map keys are strings.  [FEnum n p]: an enum
    value as formats with enums report it; [p] is what [newtype_variant] finds, [None] for a variant without contents. *)
Inductive doc : Type :=
| FBool (b : bool)
| FInt (sg : bool) (w : N) (z : Z)
| FChar (c : char)
| FStr (s : str)
| FSeq (l : list doc)
| FMap (l : list (str * doc))
| FFloat
| FBytes (b : bytes)
| FUnit
| FNone
| FSome (d : doc)
| FEnum (n : str) (p : option doc).

(** ** Deserializers.  The things that implement [Deserializer] while a value is being deserialized. *)
Inductive source (T : Type) : Type :=
| SrcValue (v : value T)                     (* Value<T>, deserializer.rs:76-169 (its ValueDef: 215-401) *)
| SrcComposite (c : composite (value T))     (* Composite<T>, 410-551 *)
| SrcVariant (n : str) (c : composite (value T)) (* Variant<T>, 595-697 *)
| SrcPrim (p : prim)                         (* Primitive, 745-794 *)
| SrcBools (l : list bool)                   (* Vec<bool>::into_deserializer() inside bitvec_helpers.rs:46-49 *)
| SrcBool (b : bool)                         (* its elements *)
| SrcDoc (d : doc).                          (* a document of another format *)
Arguments SrcValue {T} v.
Arguments SrcComposite {T} c.
Arguments SrcVariant {T} n c.
Arguments SrcPrim {T} p.
Arguments SrcBools {T} l.
Arguments SrcBool {T} b.
Arguments SrcDoc {T} d.

(** The [deserialize_*] methods of [Deserializer]. *)
Inductive hint : Type :=
| HAny | HBool | HInt (sg : bool) (w : N) | HFloat | HChar | HStr | HBytes | HOption | HUnit | HUnitStruct
| HNewtypeStruct | HSeq | HTuple (n : nat) | HTupleStruct (n : nat) | HMap | HStruct | HEnum | HIdentifier | HIgnoredAny.

(** The [visit_*] methods of [Visitor].  [VSeq strict l]: after the visitor returns, a strict sequence rejects unread
    elements ([SeqDeserializer::end]).  Map keys and enum names are always string deserializers here, so they are given
    as strings. *)
Inductive event (T : Type) : Type :=
| VBool (b : bool)
| VInt (sg : bool) (w : N) (z : Z)
| VChar (c : char)
| VString (s : str)
| VBytes (b : bytes)
| VNone
| VSome (s : source T)
| VUnit
| VSeq (strict : bool) (l : list (source T))
| VMap (l : list (str * source T))
| VEnum (n : str) (c : composite (value T))
| VFloat                                             (* visit_f32, visit_f64 *)
| VEnumOf (n : str) (p : option (source T)).         (* visit_enum of another format *)
Arguments VBool {T} b.
Arguments VInt {T} sg w z.
Arguments VChar {T} c.
Arguments VString {T} s.
Arguments VBytes {T} b.
Arguments VNone {T}.
Arguments VSome {T} s.
Arguments VUnit {T}.
Arguments VSeq {T} strict l.
Arguments VMap {T} l.
Arguments VEnum {T} n c.
Arguments VFloat {T}.
Arguments VEnumOf {T} n p.

(** Range of the Rust integer type of width [w]. *)
Definition in_int (sg : bool) (w : N) (z : Z) : bool :=
  if sg then ((- 2 ^ (Z.of_N w - 1) <=? z) && (z <? 2 ^ (Z.of_N w - 1)))%Z
  else ((0 <=? z) && (z <? 2 ^ Z.of_N w))%Z.

(** [BITVEC_SERDE_IDENT], bitvec_helpers.rs:33. *)
Definition bitvec_key : str := s2l "__bitvec__values__".

Section Deserializer.
  Context {T : Type}.
  Notation source := (source T).
  Notation event := (event T).

  (** Composite::deserialize_any, deserializer.rs:413-425. *)
  Definition composite_any (c : composite (value T)) : event :=
    match c with
    | Named l => VMap (map (fun kv => (fst kv, SrcValue (snd kv))) l)
    | Unnamed l => VSeq false (map SrcValue l)
    end.

  (** Composite::deserialize_byte_buf, deserializer.rs:519-537. *)
  Definition composite_bytes (c : composite (value T)) : result event derr :=
    bind (mapM (fun v => match vdef_of v with
                         | DPrim (PU128 n) => if (n <? 256)%N then Ok n else Err DCustom
                         | _ => Err DCustom
                         end) (values c))
         (fun b => Ok (VBytes b)).

  (** [Deserializer for Composite<T>], deserializer.rs:410-551. *)
  Definition composite_de (c : composite (value T)) (h : hint) : result event derr :=
    match h with
    | HSeq => Ok (VSeq false (map SrcValue (values c)))                                  (* 427-438 *)
    | HTuple n | HTupleStruct n =>                                                        (* 440-469, 471-481 *)
        if Nat.eqb (clen c) n then Ok (VSeq false (map SrcValue (values c))) else Err DCustom
    | HUnit | HUnitStruct => if cis_empty c then Ok VUnit else Err DCustom                (* 483-495, 497-506 *)
    | HNewtypeStruct => Ok (VSeq false [SrcComposite c])                                  (* 508-517 *)
    | HBytes => composite_bytes c                                                         (* 519-544 *)
    | _ => Ok (composite_any c)                                                           (* 546-550 *)
    end.

  (** [Deserializer for Variant<T>], deserializer.rs:595-697. *)
  Definition variant_de (n : str) (c : composite (value T)) (h : hint) : result event derr :=
    match h with
    | HAny | HEnum => Ok (VEnum n c)                                                      (* 598-603, 605-615 *)
    | HNewtypeStruct => Ok (VSeq false [SrcVariant n c])                                  (* 617-626 *)
    | HTuple _ | HTupleStruct _ | HUnitStruct | HUnit | HStruct | HMap | HSeq => composite_de c h  (* 630-691 *)
    | _ => Ok (VEnum n c)                                                                 (* 693-696 *)
    end.

  (** Primitive::deserialize_any, deserializer.rs:748-761. *)
  Definition prim_any (p : prim) : event :=
    match p with
    | PBool b => VBool b
    | PChar c => VChar c
    | PString s => VString s
    | PU128 n => VInt false 128 (Z.of_N n)
    | PU256 b => VBytes b
    | PI128 z => VInt true 128 z
    | PI256 b => VBytes b
    end.

  (** [Deserializer for Primitive], deserializer.rs:745-794; the [deserialize_number!] macro is 724-743. *)
  Definition prim_de (p : prim) (h : hint) : event :=
    match h with
    | HInt sg w =>
        match p with
        | PU128 n => if in_int sg w (Z.of_N n) then VInt sg w (Z.of_N n) else prim_any p
        | PI128 z => if in_int sg w z then VInt sg w z else prim_any p
        | _ => prim_any p
        end
    | HNewtypeStruct => VSeq false [SrcPrim p]                                            (* 778-787 *)
    | _ => prim_any p                                                                     (* 789-793 *)
    end.

  (** bitvec_helpers.rs:46-49. *)
  Definition bits_map (b : list bool) : event := VMap [(bitvec_key, SrcBools b)].

  (** The arms for [ValueDef::BitSequence], deserializer.rs:215-401. *)
  Definition bits_de (b : list bool) (h : hint) : result event derr :=
    match h with
    | HNewtypeStruct | HTuple _ | HTupleStruct _ | HUnit | HUnitStruct | HEnum | HBytes | HSeq | HMap => Err DCustom
    | _ => Ok (bits_map b)
    end.

  (** [Deserializer for ValueDef<T>], deserializer.rs:215-401. *)
  Definition vdef_any (d : vdef (value T)) : event :=
    match d with
    | DComposite c => composite_any c
    | DVariant n c => VEnum n c
    | DBits b => bits_map b
    | DPrim p => prim_any p
    end.

  Definition vdef_de (d : vdef (value T)) (h : hint) : result event derr :=
    match h with
    | HOption =>                                                                          (* 375-394 *)
        match d with
        | DVariant n (Unnamed vs) =>
            if str_eqb n (s2l "Some") && Nat.eqb (length vs) 1
            then match vs with v :: _ => Ok (VSome (SrcValue v)) | [] => Err DHang end
            else if str_eqb n (s2l "None") && Nat.eqb (length vs) 0 then Ok VNone
            else Ok (vdef_any d)
        | _ => Ok (vdef_any d)
        end
    | HStruct | HIdentifier | HIgnoredAny => Ok (vdef_any d)                              (* 396-400 *)
    | _ =>                                                                                (* delegate_except_bitseq! *)
        match d with
        | DComposite c => composite_de c h
        | DVariant n c => variant_de n c h
        | DPrim p => Ok (prim_de p h)
        | DBits b => bits_de b h
        end
    end.

  (** A document: [deserialize_any] for every hint, as [forward_to_deserialize_any!] does. *)
  Definition doc_de (d : doc) : event :=
    match d with
    | FBool b => VBool b
    | FInt sg w z => VInt sg w z
    | FChar c => VChar c
    | FStr s => VString s
    | FSeq l => VSeq true (map SrcDoc l)
    | FMap l => VMap (map (fun kv => (fst kv, SrcDoc (snd kv))) l)
    | FFloat => VFloat
    | FBytes b => VBytes b
    | FUnit => VUnit
    | FNone => VNone
    | FSome d => VSome (SrcDoc d)
    | FEnum n p => VEnumOf n (option_map SrcDoc p)
    end.

  Definition deserialize (s : source) (h : hint) : result event derr :=
    match s with
    | SrcValue v => vdef_de (vdef_of v) h
    | SrcComposite c => composite_de c h
    | SrcVariant n c => variant_de n c h
    | SrcPrim p => Ok (prim_de p h)
    | SrcBools l => Ok (VSeq true (map SrcBool l))
    | SrcBool b => Ok (VBool b)
    | SrcDoc d => Ok (doc_de d)
    end.

  (** ** Visitors of std types (serde's own impls). *)

  (** [bool]. *)
  Definition visit_bool (e : event) : result bool derr :=
    match e with VBool b => Ok b | _ => Err DType end.

  (** The integer types: their own [visit_*] method takes the number as it is; the methods of the other integer types of
      up to 64 bits convert with a range check; [visit_u128]/[visit_i128] exist only for the 128-bit targets. *)
  Definition visit_int (sg : bool) (w : N) (e : event) : result Z derr :=
    match e with
    | VInt sg' w' z =>
        if (w' =? 128)%N && negb (w =? 128)%N then Err DType
        else if in_int sg w z then Ok z else Err DRange
    | _ => Err DType
    end.

  (** [char]: a string of exactly one char is accepted. *)
  Definition visit_char (e : event) : result char derr :=
    match e with
    | VChar c => Ok c
    | VString [c] => Ok c
    | VString _ => Err DRange
    | _ => Err DType
    end.

  (** [String]: the default [visit_char] goes to [visit_str]; bytes must be UTF-8. *)
  Definition visit_string (e : event) : result str derr :=
    match e with
    | VString s => Ok s
    | VChar c => Ok [c]
    | VBytes b => match utf8_decode b with Some s => Ok s | None => Err DRange end
    | _ => Err DType
    end.

  (** [()] and unit structs. *)
  Definition visit_unit (e : event) : result unit derr :=
    match e with VUnit => Ok tt | _ => Err DType end.

  (** [Vec<A>]. *)
  Definition visit_vec {A} (f : source -> result A derr) (e : event) : result (list A) derr :=
    match e with VSeq _ l => mapM f l | _ => Err DType end.

  (** Read one element for each decoder. *)
  Fixpoint seq_take {A} (fs : list (source -> result A derr)) (l : list source) : result (list A * list source) derr :=
    match fs with
    | [] => Ok ([], l)
    | f :: fs' =>
        match l with
        | [] => Err DLength
        | s :: l' => bind (f s) (fun x => bind (seq_take fs' l') (fun r => Ok (x :: fst r, snd r)))
        end
    end.

  (** [visit_seq] of tuples, arrays, tuple structs and structs. *)
  Definition visit_elems {A} (fs : list (source -> result A derr)) (e : event) : result (list A) derr :=
    match e with
    | VSeq strict l =>
        bind (seq_take fs l) (fun r => match snd r with
                                       | [] => Ok (fst r)
                                       | _ :: _ => if strict then Err DLength else Ok (fst r)
                                       end)
    | _ => Err DType
    end.

  Definition de_bool (s : source) : result bool derr := bind (deserialize s HBool) visit_bool.
  Definition de_u8 (s : source) : result Z derr := bind (deserialize s (HInt false 8)) (visit_int false 8).
  Definition de_string (s : source) : result str derr := bind (deserialize s HStr) visit_string.

  (** ** Visitors of the crate, deserialize.rs *)

  (** [PrimitiveVisitor], deserialize.rs:99-157. *)
  Definition visit_prim (e : event) : result prim derr :=
    match e with
    | VBool b => Ok (PBool b)
    | VInt true _ z => Ok (PI128 z)
    | VInt false _ z => Ok (PU128 (Z.to_N z))
    | VChar c => Ok (PChar c)
    | VString s => Ok (PString s)
    | VBytes b => if Nat.eqb (length b) 32 then Ok (PU256 b) else Err DType                 (* 133-141 *)
    | VSeq _ l =>                                                                           (* 143-156 *)
        bind (mapM de_u8 l) (fun b => if Nat.eqb (length b) 32 then Ok (PU256 (map Z.to_N b)) else Err DLength)
    | _ => Err DType
    end.

  (** [CompositeVisitor], deserialize.rs:161-211; [rec] is [Value::deserialize].  ([visit_newtype_struct], 183-188, is
      never called by the deserializers above.) *)
  Definition visit_composite (rec : source -> result (value unit) derr) (e : event) : result (composite (value unit)) derr :=
    match e with
    | VBytes b => Ok (Unnamed (map vu128 b))
    | VUnit => Ok (Unnamed [])
    | VSeq _ l => rmap Unnamed (mapM rec l)
    | VMap l => rmap Named (mapM (fun kv => rmap (pair (fst kv)) (rec (snd kv))) l)
    | _ => Err DType
    end.

  (** [MapOrBitSeqVisitor::visit_map], bitvec_helpers.rs:65-99. *)
  Definition visit_map_or_bits (rec : source -> result (value unit) derr) (l : list (str * source)) : result (vdef (value unit)) derr :=
    match l with
    | [] => Ok (DComposite (Named []))
    | (k, s) :: l' =>
        if str_eqb k bitvec_key then
          rmap DBits (bind (deserialize s HSeq) (visit_vec de_bool))
        else
          bind (rec s) (fun v =>
          bind (mapM (fun kv => rmap (pair (fst kv)) (rec (snd kv))) l') (fun vs =>
          Ok (DComposite (Named ((k, v) :: vs)))))
    end.

  (** [Composite::deserialize], deserialize.rs:68-75. *)
  Definition de_composite_with (rec : source -> result (value unit) derr) (s : source) : result (composite (value unit)) derr :=
    bind (deserialize s HAny) (visit_composite rec).

  (** The loop of [VariantVisitor::visit_map], deserialize.rs:266-276. *)
  Fixpoint variant_fields (rec : source -> result (value unit) derr) (l : list (str * source))
      (name : option str) (vals : option (composite (value unit))) : result (option str * option (composite (value unit))) derr :=
    match l with
    | [] => Ok (name, vals)
    | (k, s) :: l' =>
        if str_eqb k (s2l "name") then bind (de_string s) (fun n => variant_fields rec l' (Some n) vals)
        else if str_eqb k (s2l "values") then bind (de_composite_with rec s) (fun c => variant_fields rec l' name (Some c))
        else Err DUnknown
    end.

  (** [VariantVisitor], deserialize.rs:215-287. *)
  Definition visit_variant (rec : source -> result (value unit) derr) (e : event) : result (str * composite (value unit)) derr :=
    match e with
    | VEnum n c => rmap (pair n) (de_composite_with rec (SrcComposite c))                    (* 222-235; newtype_variant_seed, deserializer.rs:569-574 *)
    | VEnumOf n (Some s) => rmap (pair n) (de_composite_with rec s)                          (* the same, with another format's enum *)
    | VSome s => rmap (fun v => (s2l "Some", Unnamed [v])) (rec s)                           (* 237-245 *)
    | VNone => Ok (s2l "None", Unnamed [])                                                   (* 247-254 *)
    | VMap l =>                                                                              (* 256-286 *)
        bind (variant_fields rec l None None) (fun nv =>
        match nv with (Some n, Some c) => Ok (n, c) | _ => Err DCustom end)
    | _ => Err DType
    end.

  (** [ValueDefVisitor], deserialize.rs:307-380. *)
  Definition visit_valuedef (rec : source -> result (value unit) derr) (e : event) : result (vdef (value unit)) derr :=
    match e with
    | VBool _ | VInt _ _ _ | VChar _ | VString _ => rmap DPrim (visit_prim e)                (* 314-330 *)
    | VUnit | VBytes _ => rmap DComposite (visit_composite rec e)                            (* 332-336 *)
    | VNone | VSome _ => rmap (fun nc => DVariant (fst nc) (snd nc)) (visit_variant rec e)   (* 338-350 *)
    | VSeq _ _ => rmap DComposite (visit_composite rec e)                                    (* 359-364 *)
    | VMap l => visit_map_or_bits rec l                                                      (* 366-372 *)
    | VEnum _ _ | VEnumOf _ _ => rmap (fun nc => DVariant (fst nc) (snd nc)) (visit_variant rec e) (* 374-379 *)
    | VFloat => Err DType
    end.

  (** [Value::deserialize], deserialize.rs:40-48.  Fuel bounds the nesting. *)
  Fixpoint de_value_f (fuel : nat) (s : source) : result (value unit) derr :=
    match fuel with
    | O => Err DHang
    | S f => bind (deserialize s HAny) (fun e => rmap (fun d => Val d tt) (visit_valuedef (de_value_f f) e))
    end.

  (** serde's [IgnoredAny], which accepts every event and reads everything in it. *)
  Fixpoint de_ignored_f (fuel : nat) (s : source) : result unit derr :=
    match fuel with
    | O => Err DHang
    | S f =>
        bind (deserialize s HIgnoredAny) (fun e =>
        match e with
        | VSome s' => de_ignored_f f s'
        | VSeq _ l => rmap (fun _ => tt) (mapM (de_ignored_f f) l)
        | VMap l => rmap (fun _ => tt) (mapM (fun kv => de_ignored_f f (snd kv)) l)
        | VEnum _ c => de_ignored_f f (SrcComposite c)
        | VEnumOf _ (Some s') => de_ignored_f f s'
        | _ => Ok tt
        end)
    end.
End Deserializer.

(** Enough fuel for a source. *)
Fixpoint doc_size (d : doc) : nat :=
  S (match d with
     | FSeq l => list_sum (map doc_size l)
     | FMap l => list_sum (map (fun kv => match kv with (_, x) => doc_size x end) l)
     | FSome d => doc_size d
     | FEnum _ (Some d) => S (doc_size d)
     | _ => 0%nat
     end).

Definition csize {T} (c : composite (value T)) : nat := list_sum (map vsize (values c)).

Definition src_size {T} (s : source T) : nat :=
  match s with
  | SrcValue v => (3 * vsize v)%nat
  | SrcComposite c => (1 + 3 * csize c)%nat
  | SrcVariant _ c => (2 + 3 * csize c)%nat
  | SrcPrim _ => 1%nat
  | SrcBools l => 2%nat
  | SrcBool _ => 1%nat
  | SrcDoc d => doc_size d
  end.

Definition de_value {T} (s : source T) : result (value unit) derr := de_value_f (S (src_size s)) s.
Definition de_ignored {T} (s : source T) : result unit derr := de_ignored_f (S (src_size s)) s.
(** [Composite::deserialize], [Variant::deserialize], [Primitive::deserialize], deserialize.rs:59-84. *)
Definition de_composite {T} (s : source T) : result (composite (value unit)) derr := de_composite_with de_value s.
Definition de_variant {T} (s : source T) : result (str * composite (value unit)) derr :=
  bind (deserialize s HAny) (visit_variant de_value).
Definition de_prim {T} (s : source T) : result prim derr := bind (deserialize s HAny) visit_prim.

(** ** A universe of Rust types with serde impls *)

(** Bodies of enum variants. *)
Inductive vshape (A : Type) : Type :=
| VsUnit
| VsNewtype (a : A)
| VsTuple (l : list A)
| VsStruct (l : list (str * A)).
Arguments VsUnit {A}.
Arguments VsNewtype {A} a.
Arguments VsTuple {A} l.
Arguments VsStruct {A} l.

Inductive ty : Type :=
| TyBool
| TyInt (sg : bool) (w : N)         (* u8 .. u128, i8 .. i128 *)
| TyChar
| TyString
| TyUnit
| TyBytes                           (* a byte buffer type whose visitor takes bytes and sequences *)
| TyOption (t : ty)
| TyVec (t : ty)
| TyTuple (l : list ty)             (* tuples; an array [A; n] is n copies of A *)
| TyMap (t : ty)                    (* BTreeMap<String, A> *)
| TyMapChar (t : ty)                (* BTreeMap<char, A> *)
| TyUnitStruct                      (* struct A; *)
| TyNewtype (t : ty)                (* struct A(B); *)
| TyTupleStruct (l : list ty)       (* struct A(B, C, ..) with 0 or at least 2 fields *)
| TyStruct (l : list (str * ty))    (* struct A { b: B, .. } *)
| TyEnum (l : list (str * vshape ty))
| TyValue | TyComposite | TyVariant | TyPrim.

(** Data of those types. *)
Inductive data : Type :=
| XBool (b : bool)
| XInt (z : Z)
| XChar (c : char)
| XString (s : str)
| XUnit
| XBytes (b : bytes)
| XNone
| XSome (d : data)
| XVec (l : list data)
| XTuple (l : list data)
| XMap (l : list (str * data))
| XUnitStruct
| XNewtype (d : data)
| XTupleStruct (l : list data)
| XStruct (l : list (str * data))
| XEnum (n : str) (b : vshape data)
| XValue (v : value unit)
| XComposite (c : composite (value unit))
| XVariant (n : str) (c : composite (value unit))
| XPrim (p : prim).

(** [missing_field]: an absent field of type [Option] is [None], any other is an error. *)
Definition missing (t : ty) : result data derr :=
  match t with TyOption _ => Ok XNone | _ => Err DMissing end.

(** Order of Rust strings (bytewise, which for UTF-8 is the order of the code points). *)
Fixpoint str_ltb (a b : str) : bool :=
  match a, b with
  | _, [] => false
  | [], _ :: _ => true
  | x :: a', y :: b' => (x <? y)%N || ((x =? y)%N && str_ltb a' b')
  end.

(** [BTreeMap::insert]. *)
Fixpoint map_insert (k : str) (x : data) (l : list (str * data)) : list (str * data) :=
  match l with
  | [] => [(k, x)]
  | (k', x') :: l' =>
      if str_ltb k k' then (k, x) :: l
      else if str_eqb k k' then (k', x) :: l'
      else (k', x') :: map_insert k x l'
  end.

Section Targets.
  Context {T : Type}.
  Notation source := (source T).
  Notation event := (event T).

  (** [visit_map] that a derived struct visitor runs: each key selects a field, a field given twice is an error, unknown
      keys are read with [IgnoredAny]. *)
  Fixpoint struct_entries (fs : list (str * (source -> result data derr))) (l : list (str * source)) (acc : list (str * data))
      : result (list (str * data)) derr :=
    match l with
    | [] => Ok acc
    | (k, s) :: l' =>
        match find_field k fs with
        | None => bind (de_ignored s) (fun _ => struct_entries fs l' acc)
        | Some f =>
            match find_field k acc with
            | Some _ => Err DDuplicate
            | None => bind (f s) (fun x => struct_entries fs l' ((k, x) :: acc))
            end
        end
    end.

  (** The fields in the order of the declaration; absent ones are [missing]. *)
  Definition struct_finish (ms : list (str * result data derr)) (acc : list (str * data)) : result (list (str * data)) derr :=
    mapM (fun m => rmap (pair (fst m)) (match find_field (fst m) acc with Some x => Ok x | None => snd m end)) ms.

  Definition visit_struct (fs : list (str * (source -> result data derr))) (ms : list (str * result data derr)) (e : event)
      : result (list (str * data)) derr :=
    match e with
    | VMap l => bind (struct_entries fs l []) (struct_finish ms)
    | VSeq _ _ => rmap (combine (map fst fs)) (visit_elems (map snd fs) e)
    | _ => Err DType
    end.

  (** A derived enum visitor: [visit_enum]; the four methods of [VariantAccess for Composite], deserializer.rs:562-593. *)
  Definition visit_enum (vs : list (str * vshape (source -> result data derr)))
      (ms : list (str * vshape (result data derr))) (e : event) : result data derr :=
    match e with
    | VEnum n c =>
        match find_field n vs, find_field n ms with
        | Some (VsUnit), _ => bind (deserialize (SrcComposite c) HUnit) (fun e' => rmap (fun _ => XEnum n VsUnit) (visit_unit e'))
        | Some (VsNewtype f), _ => rmap (fun x => XEnum n (VsNewtype x)) (f (SrcComposite c))
        | Some (VsTuple fs), _ =>
            bind (composite_de c (HTuple (length fs))) (fun e' => rmap (fun l => XEnum n (VsTuple l)) (visit_elems fs e'))
        | Some (VsStruct fs), Some (VsStruct m) =>
            rmap (fun l => XEnum n (VsStruct l)) (visit_struct fs m (composite_any c))
        | _, _ => Err DUnknown
        end
    | _ => Err DType
    end.

  Definition vshape_map {A B} (f : A -> B) (b : vshape A) : vshape B :=
    match b with
    | VsUnit => VsUnit
    | VsNewtype a => VsNewtype (f a)
    | VsTuple l => VsTuple (map f l)
    | VsStruct l => VsStruct (map (fun na => match na with (n, a) => (n, f a) end) l)
    end.

  (** [T::deserialize] for the types of the universe. *)
  Fixpoint de (t : ty) : source -> result data derr :=
    match t with
    | TyBool => fun s => rmap XBool (de_bool s)
    | TyInt sg w => fun s => rmap XInt (bind (deserialize s (HInt sg w)) (visit_int sg w))
    | TyChar => fun s => rmap XChar (bind (deserialize s HChar) visit_char)
    | TyString => fun s => rmap XString (de_string s)
    | TyUnit => fun s => rmap (fun _ => XUnit) (bind (deserialize s HUnit) visit_unit)
    | TyBytes => fun s =>
        bind (deserialize s HBytes) (fun e =>
        match e with
        | VBytes b => Ok (XBytes b)
        | VSeq _ l => rmap (fun b => XBytes (map Z.to_N b)) (mapM de_u8 l)
        | _ => Err DType
        end)
    | TyOption t' => fun s =>
        bind (deserialize s HOption) (fun e =>
        match e with
        | VNone | VUnit => Ok XNone
        | VSome s' => rmap XSome (de t' s')
        | _ => Err DType
        end)
    | TyVec t' => fun s => rmap XVec (bind (deserialize s HSeq) (visit_vec (de t')))
    | TyTuple ts => fun s => rmap XTuple (bind (deserialize s (HTuple (length ts))) (visit_elems (map de ts)))
    | TyMap t' => fun s =>
        bind (deserialize s HMap) (fun e =>
        match e with
        | VMap l => rmap (fun kvs => XMap (fold_left (fun m kv => map_insert (fst kv) (snd kv) m) kvs []))
                         (mapM (fun kv => rmap (pair (fst kv)) (de t' (snd kv))) l)
        | _ => Err DType
        end)
    | TyMapChar t' => fun s =>
        bind (deserialize s HMap) (fun e =>
        match e with
        | VMap l => rmap (fun kvs => XMap (fold_left (fun m kv => map_insert (fst kv) (snd kv) m) kvs []))
                         (mapM (fun kv => bind (visit_char (T := T) (VString (fst kv))) (fun c => rmap (pair [c]) (de t' (snd kv)))) l)
        | _ => Err DType
        end)
    | TyUnitStruct => fun s => rmap (fun _ => XUnitStruct) (bind (deserialize s HUnitStruct) visit_unit)
    | TyNewtype t' => fun s =>
        bind (deserialize s HNewtypeStruct) (fun e =>
        rmap (fun l => XNewtype (match l with x :: _ => x | [] => XUnit end)) (visit_elems [de t'] e))
    | TyTupleStruct ts => fun s => rmap XTupleStruct (bind (deserialize s (HTupleStruct (length ts))) (visit_elems (map de ts)))
    | TyStruct fs => fun s =>
        rmap XStruct (bind (deserialize s HStruct)
          (visit_struct (map (fun nt => match nt with (n, t') => (n, de t') end) fs)
                        (map (fun nt => match nt with (n, t') => (n, missing t') end) fs)))
    | TyEnum vs => fun s =>
        bind (deserialize s HEnum)
          (visit_enum (map (fun nb => match nb with (n, b) =>
                         (n, match b with
                             | VsUnit => VsUnit
                             | VsNewtype t' => VsNewtype (de t')
                             | VsTuple l => VsTuple (map de l)
                             | VsStruct l => VsStruct (map (fun nt => match nt with (m, t') => (m, de t') end) l)
                             end) end) vs)
                      (map (fun nb => match nb with (n, b) => (n, vshape_map missing b) end) vs))
    | TyValue => fun s => rmap XValue (de_value s)
    | TyComposite => fun s => rmap XComposite (de_composite s)
    | TyVariant => fun s => rmap (fun nc => XVariant (fst nc) (snd nc)) (de_variant s)
    | TyPrim => fun s => rmap XPrim (de_prim s)
    end.

  (** [from_value], lib.rs:104-108. *)
  Definition from_value (t : ty) (v : value T) : result data derr := de t (SrcValue v).
End Targets.

(** ** Serializing *)

(** The serde data model: the calls a [Serialize] impl makes on its [Serializer]. *)
Inductive sd : Type :=
| SBool (b : bool)
| SInt (sg : bool) (w : N) (z : Z)
| SFloat                                      (* serialize_f32 / serialize_f64; the number plays no role *)
| SChar (c : char)
| SStr (s : str)
| SBytes (b : bytes)
| SNone
| SSome (x : sd)
| SUnit
| SUnitStruct
| SUnitVariant (n : str)
| SNewtypeStruct (x : sd)
| SNewtypeVariant (n : str) (x : sd)
| SSeq (l : list sd)
| STuple (l : list sd)
| STupleStruct (l : list sd)
| STupleVariant (n : str) (l : list sd)
| SMap (l : list (sd * sd))
| SStruct (l : list (str * sd))
| SStructVariant (n : str) (l : list (str * sd)).

(** [SerializerError], serializer.rs:34-49. *)
Inductive serr : Type := SECannotSerializeFloats | SEMapKeyMustBeStringlike.

(** [NamedCompositeSerializer::serialize_key], serializer.rs:349-364. *)
Definition key_of (v : value unit) : result str serr :=
  match vdef_of v with
  | DPrim (PString s) => Ok s
  | DPrim (PChar c) => Ok [c]
  | _ => Err SEMapKeyMustBeStringlike
  end.

(** [Serializer for ValueSerializer], serializer.rs:68-211, with the compound serializers 214-409. *)
Fixpoint to_value_sd (d : sd) : result (value unit) serr :=
  match d with
  | SBool b => Ok (vbool b)
  | SInt true _ z => Ok (vi128 z)                                                           (* 82-86, [v.into()] *)
  | SInt false _ z => Ok (vu128 (Z.to_N z))                                                 (* 87-91 *)
  | SChar c => Ok (vchar c)
  | SFloat => Err SECannotSerializeFloats                                                   (* 93-98 *)
  | SStr s => Ok (vstring s)
  | SBytes b => Ok (unnamed_composite (map vu128 b))                                        (* 104-107 *)
  | SNone => Ok (unnamed_variant (s2l "None") [])                                           (* 109-111 *)
  | SSome x => bind (to_value_sd x) (fun v => Ok (unnamed_variant (s2l "Some") [v]))        (* 113-119 *)
  | SUnit | SUnitStruct => Ok (unnamed_composite [])                                        (* 121-127 *)
  | SUnitVariant n => Ok (unnamed_variant n [])                                             (* 129-136 *)
  | SNewtypeStruct x => bind (to_value_sd x) (fun v => Ok (unnamed_composite [v]))          (* 138-148 *)
  | SNewtypeVariant n x => bind (to_value_sd x) (fun v => Ok (unnamed_variant n [v]))       (* 150-162 *)
  | SSeq l | STuple l | STupleStruct l => rmap unnamed_composite (mapM to_value_sd l)       (* 164-178, 229-243 *)
  | STupleVariant n l => rmap (unnamed_variant n) (mapM to_value_sd l)                      (* 180-188 *)
  | SMap l =>                                                                               (* 190-192, 345-377 *)
      rmap named_composite
        (mapM (fun kv => match kv with (k, x) =>
                 bind (to_value_sd k) (fun kk => bind (key_of kk) (fun s => bind (to_value_sd x) (fun v => Ok (s, v)))) end) l)
  | SStruct l =>                                                                            (* 194-200, 327-335 *)
      rmap named_composite (mapM (fun nx => match nx with (n, x) => bind (to_value_sd x) (fun v => Ok (n, v)) end) l)
  | SStructVariant n l =>                                                                   (* 202-210 *)
      rmap (named_variant n) (mapM (fun nx => match nx with (m, x) => bind (to_value_sd x) (fun v => Ok (m, v)) end) l)
  end.

(** serialize_as_first_ok_type!, serialize.rs:77-88. *)
Fixpoint first_ok_type (sg : bool) (ws : list N) (z : Z) : sd :=
  match ws with
  | [] => SInt sg 128 z
  | w :: ws' => if in_int sg w z then SInt sg w z else first_ok_type sg ws' z
  end.

(** [Serialize for Primitive], serialize.rs:90-116; a [[u8; 32]] serializes as a tuple of u8. *)
Definition ser_prim (p : prim) : sd :=
  match p with
  | PBool b => SBool b
  | PChar c => SChar c
  | PString s => SStr s
  | PU128 n => first_ok_type false [8; 16; 32; 64; 128]%N (Z.of_N n)
  | PU256 b => STuple (map (fun x => SInt false 8 (Z.of_N x)) b)
  | PI128 z => first_ok_type true [8; 16; 32; 64; 128]%N z
  | PI256 b => STuple (map (fun x => SInt false 8 (Z.of_N x)) b)
  end.

(** [serialize_bitvec], bitvec_helpers.rs:36-43; scale-bits' [Bits] serializes as a sequence of bools. *)
Definition ser_bits (b : list bool) : sd := SMap [(SStr bitvec_key, SSeq (map SBool b))].

(** [Serialize for Composite<T>], serialize.rs:53-75. *)
Definition ser_composite_with {A} (f : A -> sd) (c : composite A) : sd :=
  match c with
  | Named l => SMap (map (fun kv => match kv with (k, v) => (SStr k, f v) end) l)
  | Unnamed l => SSeq (map f l)
  end.

(** [Serialize for Variant<T>], serialize.rs:118-133. *)
Definition ser_variant_with {A} (f : A -> sd) (n : str) (c : composite A) : sd :=
  SMap [(SStr (s2l "name"), SStr n); (SStr (s2l "values"), ser_composite_with f c)].

(** [Serialize for Value<T>] and [ValueDef<T>], serialize.rs:30-51. *)
Fixpoint ser_value {T} (v : value T) : sd :=
  match v with
  | Val d _ =>
      match d with
      | DComposite c => ser_composite_with ser_value c
      | DVariant n c => ser_variant_with ser_value n c
      | DPrim p => ser_prim p
      | DBits b => ser_bits b
      end
  end.
Definition ser_composite {T} (c : composite (value T)) : sd := ser_composite_with ser_value c.
Definition ser_variant {T} (n : str) (c : composite (value T)) : sd := ser_variant_with ser_value n c.

(** Apply the serializers of a list of fields to their data. *)
Fixpoint zip_app {A} (fs : list (A -> sd)) (l : list A) : list sd :=
  match fs, l with f :: fs', x :: l' => f x :: zip_app fs' l' | _, _ => [] end.

Fixpoint zip_named {A} (fs : list (A -> sd)) (l : list (str * A)) : list (str * sd) :=
  match fs, l with f :: fs', (n, x) :: l' => (n, f x) :: zip_named fs' l' | _, _ => [] end.

(** What [#[derive(Serialize)]] writes for one variant of an enum. *)
Definition ser_variant_body (n : str) (b : vshape (data -> sd)) (d : vshape data) : sd :=
  match b, d with
  | VsUnit, VsUnit => SUnitVariant n
  | VsNewtype f, VsNewtype x => SNewtypeVariant n (f x)
  | VsTuple fs, VsTuple l => STupleVariant n (zip_app fs l)
  | VsStruct fs, VsStruct l => SStructVariant n (zip_named (map snd fs) l)
  | _, _ => SFloat
  end.

(** [T::serialize] for the data of the universe (std and derived impls).  Data that is not of the type, which Rust's type
    checker excludes, gives the junk [SFloat]. *)
Fixpoint ser (t : ty) : data -> sd :=
  match t with
  | TyBool => fun d => match d with XBool b => SBool b | _ => SFloat end
  | TyInt sg w => fun d => match d with XInt z => SInt sg w z | _ => SFloat end
  | TyChar => fun d => match d with XChar c => SChar c | _ => SFloat end
  | TyString => fun d => match d with XString s => SStr s | _ => SFloat end
  | TyUnit => fun d => SUnit
  | TyBytes => fun d => match d with XBytes b => SBytes b | _ => SFloat end
  | TyOption t' => fun d => match d with XNone => SNone | XSome x => SSome (ser t' x) | _ => SFloat end
  | TyVec t' => fun d => match d with XVec l => SSeq (map (ser t') l) | _ => SFloat end
  | TyTuple ts => fun d => match d with XTuple l => STuple (zip_app (map ser ts) l) | _ => SFloat end
  | TyMap t' => fun d =>
      match d with XMap l => SMap (map (fun kv => (SStr (fst kv), ser t' (snd kv))) l) | _ => SFloat end
  | TyMapChar t' => fun d =>
      match d with XMap l => SMap (map (fun kv => (SChar (hd 0%N (fst kv)), ser t' (snd kv))) l) | _ => SFloat end
  | TyUnitStruct => fun d => SUnitStruct
  | TyNewtype t' => fun d => match d with XNewtype x => SNewtypeStruct (ser t' x) | _ => SFloat end
  | TyTupleStruct ts => fun d => match d with XTupleStruct l => STupleStruct (zip_app (map ser ts) l) | _ => SFloat end
  | TyStruct fs => fun d =>
      match d with
      | XStruct l => SStruct (zip_named (map (fun nt => match nt with (_, t') => ser t' end) fs) l)
      | _ => SFloat
      end
  | TyEnum vs => fun d =>
      match d with
      | XEnum n b =>
          match find_field n (map (fun nb => match nb with (m, b') =>
                   (m, match b' with
                       | VsUnit => VsUnit
                       | VsNewtype t' => VsNewtype (ser t')
                       | VsTuple l => VsTuple (map ser l)
                       | VsStruct l => VsStruct (map (fun nt => match nt with (k, t') => (k, ser t') end) l)
                       end) end) vs) with
          | Some body => ser_variant_body n body b
          | None => SFloat
          end
      | _ => SFloat
      end
  | TyValue => fun d => match d with XValue v => ser_value v | _ => SFloat end
  | TyComposite => fun d => match d with XComposite c => ser_composite c | _ => SFloat end
  | TyVariant => fun d => match d with XVariant n c => ser_variant n c | _ => SFloat end
  | TyPrim => fun d => match d with XPrim p => ser_prim p | _ => SFloat end
  end.

(** [to_value], lib.rs:149-152. *)
Definition to_value (t : ty) (d : data) : result (value unit) serr := to_value_sd (ser t d).

(** Writing a data-model term to a lossless self-describing format: only the calls a [Value] makes are covered. *)
Fixpoint to_doc (d : sd) : option doc :=
  match d with
  | SBool b => Some (FBool b)
  | SInt sg w z => Some (FInt sg w z)
  | SChar c => Some (FChar c)
  | SStr s => Some (FStr s)
  | SSeq l | STuple l => option_map FSeq ((fix go (l : list sd) := match l with [] => Some [] | x :: r => match to_doc x, go r with Some y, Some ys => Some (y :: ys) | _, _ => None end end) l)
  | SMap l =>
      option_map FMap ((fix go (l : list (sd * sd)) := match l with
                        | [] => Some []
                        | (SStr k, x) :: r => match to_doc x, go r with Some y, Some ys => Some ((k, y) :: ys) | _, _ => None end
                        | _ => None
                        end) l)
  | _ => None
  end.
