(** * Registry: the type information handed to the encoder and decoders.
    Models what [scale_type_resolver::TypeResolver::resolve_type] tells a visitor (used at /repo/src/scale_impls/encode.rs:171
    and 267 and, through scale-decode, at /repo/src/scale_impls/decode.rs:40). *)
From Verif Require Import Base.

(** Integer widths u8..u128, i8..i128. *)
Inductive width : Type := W8 | W16 | W32 | W64 | W128.
Definition wbytes (w : width) : nat := match w with W8 => 1 | W16 => 2 | W32 => 4 | W64 => 8 | W128 => 16 end.
Definition wbits (w : width) : N := (8 * N.of_nat (wbytes w))%N.

(** [scale_type_resolver::Primitive]. *)
Inductive pty : Type := PtBool | PtChar | PtStr | PtU (w : width) | PtI (w : width) | PtU256 | PtI256.

(** [scale_bits::scale::format::{StoreFormat, OrderFormat}]. *)
Inductive bstore : Type := B8 | B16 | B32 | B64.
Inductive border : Type := Lsb0 | Msb0.
Definition bsbytes (s : bstore) : nat := match s with B8 => 1 | B16 => 2 | B32 => 4 | B64 => 8 end.
Definition bsbits (s : bstore) : nat := 8 * bsbytes s.

(** A field: optional name and type id ([scale_type_resolver::Field]). *)
Notation field TId := (option (list N) * TId)%type.

(** [scale_type_resolver::Variant]: name, index byte, fields. *)
Record vinfo (TId : Type) : Type := VInfo { vi_name : str; vi_index : N; vi_fields : list (field TId) }.
Arguments VInfo {TId}. Arguments vi_name {TId}. Arguments vi_index {TId}. Arguments vi_fields {TId}.

(** The kind of type found for an id: one constructor per [visit_*] method of [ResolvedTypeVisitor]. *)
Inductive tydef (TId : Type) : Type :=
| TComposite (fs : list (field TId))
| TVariant (vs : list (vinfo TId))
| TSequence (t : TId)
| TArray (t : TId) (len : N)
| TTuple (ts : list TId)
| TPrim (p : pty)
| TCompact (t : TId)
| TBitSeq (s : bstore) (o : border).
Arguments TComposite {TId} fs. Arguments TVariant {TId} vs. Arguments TSequence {TId} t. Arguments TArray {TId} t len.
Arguments TTuple {TId} ts. Arguments TPrim {TId} p. Arguments TCompact {TId} t. Arguments TBitSeq {TId} s o.

(** [resolve_type]: [Err(_)], [visit_not_found], or a type. *)
Inductive resolution (TId : Type) : Type :=
| ResErr
| ResNotFound
| ResTy (ty : tydef TId).
Arguments ResErr {TId}. Arguments ResNotFound {TId}. Arguments ResTy {TId} ty.

(** Behaviour of dependencies that could not be read; every theorem holds for all choices unless it says otherwise. *)
Record ext : Type := Ext {
  x_char : bool;      (** a [char] can be encoded at the primitive type [char] (scale-encode) *)
  x_256 : bool;       (** a [[u8; 32]] can be encoded at the primitive types u256 and i256 (scale-encode) *)
  x_maxbits : N;      (** largest number of bits scale-bits agrees to decode *)
  x_len64 : bool      (** scale-decode reads the length of a sequence or string as a u64 (otherwise as a u32) *)
}.
Definition x_len (X : ext) : N := if x_len64 X then 64%N else 32%N.
