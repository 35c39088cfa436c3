(** * Spec_Scale: what the SCALE encoding of a value at a type is, as relations that do not mention any codec function. *)
From Verif Require Import Base Value Registry.
Open Scope N_scope.

(** Sizes, in bytes and in bits, of the fixed-width integers and of the store words of bit sequences. *)
Definition int_size (w : width) : nat := match w with W8 => 1 | W16 => 2 | W32 => 4 | W64 => 8 | W128 => 16 end.
Definition int_bits (w : width) : N := 8 * N.of_nat (int_size w).
Definition store_size (s : bstore) : nat := match s with B8 => 1 | B16 => 2 | B32 => 4 | B64 => 8 end.
Definition store_bits (s : bstore) : nat := 8 * store_size s.

(** The number denoted by bytes, least significant byte first. *)
Fixpoint le_val (bs : bytes) : N := match bs with [] => 0 | b :: bs' => b + 256 * le_val bs' end.
Definition is_bytes (bs : bytes) : Prop := Forall (fun b => b < 256) bs.

(** [k] bytes denoting [n]. *)
Definition le_enc (k : nat) (n : N) (bs : bytes) : Prop := is_bytes bs /\ length bs = k /\ le_val bs = n.

(** SCALE compact integers, the unique minimal form. *)
Inductive compact_enc : N -> bytes -> Prop :=
| CE_1 : forall n, n < 2 ^ 6 -> compact_enc n [4 * n]
| CE_2 : forall n bs, 2 ^ 6 <= n < 2 ^ 14 -> le_enc 2 (4 * n + 1) bs -> compact_enc n bs
| CE_4 : forall n bs, 2 ^ 14 <= n < 2 ^ 30 -> le_enc 4 (4 * n + 2) bs -> compact_enc n bs
| CE_big : forall n k bs, 2 ^ 30 <= n -> (4 <= k <= 67)%nat -> le_enc k n bs -> (k = 4%nat \/ 256 ^ N.of_nat (k - 1) <= n) ->
    compact_enc n ((4 * (N.of_nat k - 4) + 3) :: bs).

(** UTF-8 (RFC 3629). *)
Definition utf8_char (c : char) : bytes :=
  if c <? 0x80 then [c]
  else if c <? 0x800 then [0xC0 + c / 64; 0x80 + c mod 64]
  else if c <? 0x10000 then [0xE0 + c / 4096; 0x80 + (c / 64) mod 64; 0x80 + c mod 64]
  else [0xF0 + c / 262144; 0x80 + (c / 4096) mod 64; 0x80 + (c / 64) mod 64; 0x80 + c mod 64].
Definition utf8 (s : str) : bytes := concat (map utf8_char s).

(** Bit [i] of a bit sequence lives in bit [snd] of byte [fst] of the payload. *)
Definition bit_pos (st : bstore) (o : border) (i : nat) : nat * nat :=
  let w := store_bits st in
  let pos := match o with Lsb0 => (i mod w)%nat | Msb0 => (w - 1 - i mod w)%nat end in
  ((i / w * store_size st + pos / 8)%nat, (pos mod 8)%nat).
Definition bit_at (bs : bytes) (p : nat * nat) : bool := N.testbit (nth (fst p) bs 0) (N.of_nat (snd p)).

(** The payload of a bit sequence: whole store words; [strict] asks for zero padding behind the last bit. *)
Definition bits_payload (strict : bool) (st : bstore) (o : border) (b : list bool) (bs : bytes) : Prop :=
  let words := ((length b + store_bits st - 1) / store_bits st)%nat in
  is_bytes bs /\ length bs = (words * store_size st)%nat /\
  (forall i x, nth_error b i = Some x -> bit_at bs (bit_pos st o i) = x) /\
  (strict = true -> forall i, (length b <= i < words * store_bits st)%nat -> bit_at bs (bit_pos st o i) = false).

Section Enc.
  Context {TId C : Type} (reg : TId -> resolution TId) (maxbits : N) (lenbits : N).
  (** Which context a node of type [t] carries. *)
  Context (ctxf : TId -> C).
  (** Which primitive holds the 32 bytes of an i256 (the two decoders differ here, see C30). *)
  Context (i256_as : bytes -> prim).
  (** Whether padding bits must be zero. *)
  Context (strict : bool).

  (** Primitive types, not under [Compact]. *)
  Inductive prim_enc : pty -> prim -> bytes -> Prop :=
  | PE_false : prim_enc PtBool (PBool false) [0]
  | PE_true : prim_enc PtBool (PBool true) [1]
  | PE_char : forall c bs, is_scalar c = true -> le_enc 4 c bs -> prim_enc PtChar (PChar c) bs
  | PE_str : forall s pre, forallb is_scalar s = true -> N.of_nat (length (utf8 s)) < 2 ^ lenbits ->
      compact_enc (N.of_nat (length (utf8 s))) pre -> prim_enc PtStr (PString s) (pre ++ utf8 s)
  | PE_uint : forall w n bs, le_enc (int_size w) n bs -> prim_enc (PtU w) (PU128 n) bs
  | PE_int : forall w z bs, (- 2 ^ (Z.of_N (int_bits w) - 1) <= z < 2 ^ (Z.of_N (int_bits w) - 1))%Z ->
      le_enc (int_size w) (Z.to_N (z mod 2 ^ Z.of_N (int_bits w))) bs -> prim_enc (PtI w) (PI128 z) bs
  | PE_u256 : forall bs, is_bytes bs -> length bs = 32%nat -> prim_enc PtU256 (PU256 bs) bs
  | PE_i256 : forall bs, is_bytes bs -> length bs = 32%nat -> prim_enc PtI256 (i256_as bs) bs.

  (** A struct with at least one field whose fields all have names gives a named composite, anything else an unnamed one. *)
  Inductive fields_shape {V} : list (option str) -> list V -> composite V -> Prop :=
  | FS_named : forall (kvs : list (str * V)), kvs <> [] -> fields_shape (map (fun kv => Some (fst kv)) kvs) (map snd kvs) (Named kvs)
  | FS_unnamed : forall names vs, length names = length vs -> names = [] \/ In None names -> fields_shape names vs (Unnamed vs).

  (** [enc c t v bs]: [bs] encodes [v] at type [t]; [c] says whether this is below a [Compact]. *)
  Inductive enc : bool -> TId -> value C -> bytes -> Prop :=
  | E_prim : forall t p x bs, reg t = ResTy (TPrim p) -> prim_enc p x bs -> enc false t (Val (DPrim x) (ctxf t)) bs
  | E_compact_uint : forall t w n bs, reg t = ResTy (TPrim (PtU w)) -> n < 2 ^ int_bits w -> compact_enc n bs ->
      enc true t (Val (DPrim (PU128 n)) (ctxf t)) bs
  | E_compact : forall c t t' v bs, reg t = ResTy (TCompact t') -> enc true t' v bs -> enc c t v bs
  | E_composite : forall c t fs vs cmp bs, reg t = ResTy (TComposite fs) -> (c = true -> length fs = 1%nat) ->
      encs c (map snd fs) vs bs -> fields_shape (map fst fs) vs cmp -> enc c t (Val (DComposite cmp) (ctxf t)) bs
  | E_tuple : forall c t ts vs bs, reg t = ResTy (TTuple ts) -> (c = true -> length ts = 1%nat) ->
      encs c ts vs bs -> enc c t (Val (DComposite (Unnamed vs)) (ctxf t)) bs
  | E_variant : forall t l1 name idx fs l2 vs cmp bs, reg t = ResTy (TVariant (l1 ++ VInfo name idx fs :: l2)) ->
      ~ In idx (map vi_index l1) -> idx < 256 ->
      encs false (map snd fs) vs bs -> fields_shape (map fst fs) vs cmp -> enc false t (Val (DVariant name cmp) (ctxf t)) (idx :: bs)
  | E_sequence : forall t t' vs pre bs, reg t = ResTy (TSequence t') -> N.of_nat (length vs) < 2 ^ lenbits ->
      compact_enc (N.of_nat (length vs)) pre -> encs false (repeat t' (length vs)) vs bs ->
      enc false t (Val (DComposite (Unnamed vs)) (ctxf t)) (pre ++ bs)
  | E_array : forall t t' n vs bs, reg t = ResTy (TArray t' n) -> N.of_nat (length vs) = n -> encs false (repeat t' (length vs)) vs bs ->
      enc false t (Val (DComposite (Unnamed vs)) (ctxf t)) bs
  | E_bits : forall t st o b pre bs, reg t = ResTy (TBitSeq st o) -> N.of_nat (length b) < 2 ^ 32 -> N.of_nat (length b) <= maxbits ->
      compact_enc (N.of_nat (length b)) pre -> bits_payload strict st o b bs ->
      enc false t (Val (DBits b) (ctxf t)) (pre ++ bs)
  (** Consecutive items. *)
  with encs : bool -> list TId -> list (value C) -> bytes -> Prop :=
  | Es_nil : forall c, encs c [] [] []
  | Es_cons : forall c t ts v vs b bs, enc c t v b -> encs c ts vs bs -> encs c (t :: ts) (v :: vs) (b ++ bs).
End Enc.

Scheme enc_mind := Minimality for enc Sort Prop
  with encs_mind := Minimality for encs Sort Prop.
Combined Scheme enc_encs_ind from enc_mind, encs_mind.
