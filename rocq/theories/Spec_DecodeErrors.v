(** * Spec_DecodeErrors: what has to be wrong with a type and the bytes offered for it for each kind of decode error to be true. *)
From Verif Require Import Base Value Registry Spec_Scale Scale.
Open Scope N_scope.

(** The bytes begin like a compact integer and end before it does: the lowest two bits of the first byte tell its length. *)
Inductive truncated : bytes -> Prop :=
| Tr_2 : forall p r, p mod 4 = 1 -> (length (p :: r) < 2)%nat -> truncated (p :: r)
| Tr_4 : forall p r, p mod 4 = 2 -> (length (p :: r) < 4)%nat -> truncated (p :: r)
| Tr_big : forall p r, p mod 4 = 3 -> N.of_nat (length r) < p / 4 + 4 -> truncated (p :: r).
(** The bytes, though long enough, do not begin with a compact integer below [2 ^ w] in its shortest form.
    (No bytes at all count as long enough: the codec reports them as such.) *)
Definition no_compact (w : N) (bs : bytes) : Prop :=
  ~ truncated bs /\ forall n pre r, bs = pre ++ r -> compact_enc n pre -> 2 ^ w <= n.

(** Primitives of a fixed size, except [bool]. *)
Definition fixed_size (p : pty) : option nat :=
  match p with
  | PtChar => Some 4%nat
  | PtU w | PtI w => Some (int_size w)
  | PtU256 | PtI256 => Some 32%nat
  | PtBool | PtStr => None
  end.

Section Wrong.
  Context {TId C : Type} (reg : TId -> resolution TId) (maxbits lenbits : N) (ctxf : TId -> C).

  (** What can be wrong with a primitive; the flag says whether it is inside a compact type. *)
  Inductive wrong_prim : bool -> pty -> bytes -> derr -> Prop :=
  | Wp_not_compact : forall p bs, (forall w, p <> PtU w) -> wrong_prim true p bs ECannotCompact
  | Wp_compact_short : forall w bs, truncated bs -> wrong_prim true (PtU w) bs ENotEnough
  | Wp_compact_bad : forall w bs, no_compact (int_bits w) bs -> wrong_prim true (PtU w) bs ECodec
  | Wp_short : forall p k bs, fixed_size p = Some k -> (length bs < k)%nat -> wrong_prim false p bs ENotEnough
  | Wp_bool_short : wrong_prim false PtBool [] ECodec
  | Wp_bool : forall b r, b <> 0 -> b <> 1 -> wrong_prim false PtBool (b :: r) ECodec
  | Wp_char : forall b r, length b = 4%nat -> is_scalar (le_val b) = false -> wrong_prim false PtChar (b ++ r) EInvalidChar
  | Wp_str_prefix_short : forall bs, truncated bs -> wrong_prim false PtStr bs ENotEnough
  | Wp_str_prefix : forall bs, no_compact lenbits bs -> wrong_prim false PtStr bs ECodec
  | Wp_str_short : forall n pre r, compact_enc n pre -> n < 2 ^ lenbits -> N.of_nat (length r) < n -> wrong_prim false PtStr (pre ++ r) ENotEnough
  | Wp_str : forall pre b r, compact_enc (N.of_nat (length b)) pre -> N.of_nat (length b) < 2 ^ lenbits ->
      (forall s, forallb is_scalar s = true -> utf8 s <> b) -> wrong_prim false PtStr (pre ++ b ++ r) EInvalidStr.

  (** What can be wrong right at the beginning of an item. *)
  Inductive wrong : bool -> TId -> bytes -> derr -> Prop :=
  | Wr_unresolvable : forall c t bs, reg t = ResErr -> wrong c t bs ETypeResolving
  | Wr_unknown : forall c t bs, reg t = ResNotFound -> wrong c t bs EIdNotFound
  | Wr_prim : forall c t p bs e, reg t = ResTy (TPrim p) -> wrong_prim c p bs e -> wrong c t bs e
  (** Inside a compact type there can be an unsigned integer, possibly wrapped, and nothing else. *)
  | Wr_not_compact : forall t ty bs, reg t = ResTy ty ->
      match ty with
      | TComposite fs => length fs <> 1%nat
      | TTuple ts => length ts <> 1%nat
      | TVariant _ | TSequence _ | TArray _ _ | TBitSeq _ _ => True
      | TPrim _ | TCompact _ => False
      end -> wrong true t bs ECannotCompact
  | Wr_variant_short : forall t vs, reg t = ResTy (TVariant vs) -> wrong false t [] ENotEnough
  | Wr_variant : forall t vs idx r, reg t = ResTy (TVariant vs) -> ~ In idx (map vi_index vs) -> wrong false t (idx :: r) EVariantNotFound
  | Wr_sequence_short : forall t t' bs, reg t = ResTy (TSequence t') -> truncated bs -> wrong false t bs ENotEnough
  | Wr_sequence : forall t t' bs, reg t = ResTy (TSequence t') -> no_compact lenbits bs -> wrong false t bs ECodec
  | Wr_bits_prefix_short : forall t st o bs, reg t = ResTy (TBitSeq st o) -> truncated bs -> wrong false t bs ENotEnough
  | Wr_bits_prefix : forall t st o bs, reg t = ResTy (TBitSeq st o) -> no_compact 32 bs -> wrong false t bs ECodec
  | Wr_bits_many : forall t st o n pre r, reg t = ResTy (TBitSeq st o) -> compact_enc n pre -> n < 2 ^ 32 -> maxbits < n -> wrong false t (pre ++ r) EBits
  | Wr_bits_short : forall t st o n pre r, reg t = ResTy (TBitSeq st o) -> compact_enc n pre -> n < 2 ^ 32 -> n <= maxbits ->
      (length r < (N.to_nat n + store_bits st - 1) / store_bits st * store_size st)%nat -> wrong false t (pre ++ r) ENotEnough.

  (** [next c ts bs t bs']: of consecutive items of types [ts], all those before one of type [t] have been read off [bs] in
      full, and [bs'] is left. *)
  Definition next (c : bool) (ts : list TId) (bs : bytes) (t : TId) (bs' : bytes) : Prop :=
    exists ts1 ts2 vs b, ts = ts1 ++ t :: ts2 /\ bs = b ++ bs' /\ encs reg maxbits lenbits ctxf PU256 false c ts1 vs b.

  (** [reaches c t bs c' t' bs']: reading the type [t] off [bs] one comes to an item of type [t'] with [bs'] left, and all
      that comes before it is there and well formed. *)
  Inductive reaches : bool -> TId -> bytes -> bool -> TId -> bytes -> Prop :=
  | Re_here : forall c t bs, reaches c t bs c t bs
  | Re_compact : forall c t t' bs c2 t2 bs2, reg t = ResTy (TCompact t') -> reaches true t' bs c2 t2 bs2 -> reaches c t bs c2 t2 bs2
  | Re_composite : forall c t fs bs t1 bs1 c2 t2 bs2, reg t = ResTy (TComposite fs) -> (c = true -> length fs = 1%nat) ->
      next c (map snd fs) bs t1 bs1 -> reaches c t1 bs1 c2 t2 bs2 -> reaches c t bs c2 t2 bs2
  | Re_tuple : forall c t ts bs t1 bs1 c2 t2 bs2, reg t = ResTy (TTuple ts) -> (c = true -> length ts = 1%nat) ->
      next c ts bs t1 bs1 -> reaches c t1 bs1 c2 t2 bs2 -> reaches c t bs c2 t2 bs2
  | Re_variant : forall t l1 name idx fs l2 bs t1 bs1 c2 t2 bs2, reg t = ResTy (TVariant (l1 ++ VInfo name idx fs :: l2)) ->
      ~ In idx (map vi_index l1) -> next false (map snd fs) bs t1 bs1 -> reaches false t1 bs1 c2 t2 bs2 -> reaches false t (idx :: bs) c2 t2 bs2
  | Re_sequence : forall t t' n pre bs t1 bs1 c2 t2 bs2, reg t = ResTy (TSequence t') -> compact_enc n pre -> n < 2 ^ lenbits ->
      next false (repeat t' (N.to_nat n)) bs t1 bs1 -> reaches false t1 bs1 c2 t2 bs2 -> reaches false t (pre ++ bs) c2 t2 bs2
  | Re_array : forall t t' n bs t1 bs1 c2 t2 bs2, reg t = ResTy (TArray t' n) ->
      next false (repeat t' (N.to_nat n)) bs t1 bs1 -> reaches false t1 bs1 c2 t2 bs2 -> reaches false t bs c2 t2 bs2.
End Wrong.

(** [behind_compact c t c' t']: an item of type [t] is one of type [t'], apart from marks that it is compact. *)
Inductive behind_compact {TId} (reg : TId -> resolution TId) : bool -> TId -> bool -> TId -> Prop :=
| Bc_here : forall c t, behind_compact reg c t c t
| Bc_compact : forall c t t1 c' t', reg t = ResTy (TCompact t1) -> behind_compact reg true t1 c' t' -> behind_compact reg c t c' t'.

(** An item with more than [max] children to be put into an unnamed composite. *)
Inductive crowded {TId} (reg : TId -> resolution TId) (lenbits max : N) : TId -> bytes -> Prop :=
| Cr_tuple : forall t ts bs, reg t = ResTy (TTuple ts) -> max < N.of_nat (length ts) -> crowded reg lenbits max t bs
| Cr_composite : forall t fs bs, reg t = ResTy (TComposite fs) -> In None (map fst fs) -> max < N.of_nat (length fs) -> crowded reg lenbits max t bs
| Cr_array : forall t t' n bs, reg t = ResTy (TArray t' n) -> max < n -> crowded reg lenbits max t bs
| Cr_sequence : forall t t' n pre r, reg t = ResTy (TSequence t') -> compact_enc n pre -> n < 2 ^ lenbits -> max < n -> crowded reg lenbits max t (pre ++ r).
