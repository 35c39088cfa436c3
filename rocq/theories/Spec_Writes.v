(** * Spec_Writes: the complete rules of encoding a value at a type: which values are accepted, and which bytes are written.

    [fits v t]: [v] can be encoded at [t].  [writes v t b]: it is, as [b].  The two follow the same rules; [writes] adds which rule
    goes first when several apply to a composite. *)
From Verif Require Import Base Value Registry Spec_Scale Spec_Encode Spec_Same.
Open Scope N_scope.

Section Writes.
  Context {TId T : Type} (reg : TId -> resolution TId) (X : ext).

  (** [u] is the last type of a chain of wrappers starting at [t]. *)
  Definition ends_in (R : TId -> TId -> Prop) (t u : TId) : Prop := chain R t u /\ forall w, ~ R u w.
  (** The length prefix written for [n] items ([n as u32]). *)
  Definition prefix (n : nat) (b : bytes) : Prop := compact_enc (N.of_nat n mod 2 ^ 32) b.
  Definition bits_bytes (st : bstore) (o : border) (bits : list bool) (b : bytes) : Prop :=
    exists pre pay, b = pre ++ pay /\ prefix (length bits) pre /\ bits_payload true st o bits pay.

  (** An integer, at an integer type behind any number of wrappers, or at a compact one (which may have wrappers inside). *)
  Inductive number (z : Z) (t : TId) (b : bytes) : Prop :=
  | N_uint : forall u w, chain (wraps reg) t u -> reg u = ResTy (TPrim (PtU w)) ->
      (0 <= z < 2 ^ Z.of_N (int_bits w))%Z -> le_enc (int_size w) (Z.to_N z) b -> number z t b
  | N_int : forall u w, chain (wraps reg) t u -> reg u = ResTy (TPrim (PtI w)) ->
      (- 2 ^ (Z.of_N (int_bits w) - 1) <= z < 2 ^ (Z.of_N (int_bits w) - 1))%Z ->
      le_enc (int_size w) (Z.to_N (z mod 2 ^ Z.of_N (int_bits w))) b -> number z t b
  | N_compact : forall u t' u' w, chain (wraps reg) t u -> reg u = ResTy (TCompact t') -> chain (wraps reg) t' u' -> reg u' = ResTy (TPrim (PtU w)) ->
      (0 <= z < 2 ^ Z.of_N (int_bits w))%Z -> compact_enc (Z.to_N z) b -> number z t b.
  (** Consecutive bytes, each as an integer. *)
  Inductive numbers (t : TId) : list N -> bytes -> Prop :=
  | Ns_nil : numbers t [] []
  | Ns_cons : forall n ns b bs, number (Z.of_N n) t b -> numbers t ns bs -> numbers t (n :: ns) (b ++ bs).

  (** Primitives and bit sequences. *)
  Inductive leaf : vdef (value T) -> TId -> bytes -> Prop :=
  | L_number : forall p z t b, is_integer p z -> number z t b -> leaf (DPrim p) t b
  | L_code : forall c t b, number (Z.of_N c) t b -> leaf (DPrim (PChar c)) t b
  | L_char : forall c t u b, chain (wraps reg) t u -> reg u = ResTy (TPrim PtChar) -> x_char X = true -> le_enc 4 c b -> leaf (DPrim (PChar c)) t b
  | L_bool : forall x t u, chain (wraps reg) t u -> reg u = ResTy (TPrim PtBool) -> leaf (DPrim (PBool x)) t [if x then 1 else 0]
  | L_string : forall s t u pre, chain (wraps reg) t u -> reg u = ResTy (TPrim PtStr) -> prefix (length (utf8 s)) pre -> leaf (DPrim (PString s)) t (pre ++ utf8 s)
  | L_bits : forall bits t u st o b, chain (wraps reg) t u -> reg u = ResTy (TBitSeq st o) -> bits_bytes st o bits b -> leaf (DBits bits) t b
  (** 256-bit numbers: wrappers that are arrays are not looked through; an array or sequence takes the 32 bytes one by one. *)
  | L_256 : forall p bs t u, bytes_of_256 p = Some bs -> chain (wraps1 reg) t u -> reg u = ResTy (TPrim PtU256) \/ reg u = ResTy (TPrim PtI256) ->
      x_256 X = true -> leaf (DPrim p) t bs
  | L_256_array : forall p bs t u e n b, bytes_of_256 p = Some bs -> chain (wraps1 reg) t u -> reg u = ResTy (TArray e n) -> N.of_nat (length bs) = n ->
      numbers e bs b -> leaf (DPrim p) t b
  | L_256_sequence : forall p bs t u e pre b, bytes_of_256 p = Some bs -> chain (wraps1 reg) t u -> reg u = ResTy (TSequence e) ->
      prefix (length bs) pre -> numbers e bs b -> leaf (DPrim p) t (pre ++ b).

  (** The rules for composites and variants, given how the values inside are written. *)
  Section Inside.
    Context (W : value T -> TId -> bytes -> Prop).

    (** One value per type, one after the other. *)
    Inductive in_turn : list (value T) -> list TId -> bytes -> Prop :=
    | I_nil : in_turn [] [] []
    | I_cons : forall v vs t ts b bs, W v t b -> in_turn vs ts bs -> in_turn (v :: vs) (t :: ts) (b ++ bs).

    (** The fields of a struct or variant: by name when both sides have names (an unnamed field of the type then goes by the empty
        name), by position otherwise. *)
    Definition name_of (f : field TId) : str := match fst f with Some n => n | None => [] end.
    Inductive fields : composite (value T) -> list (field TId) -> bytes -> Prop :=
    | F_by_name : forall l fs vs b, l <> [] -> (exists f, In f fs /\ fst f <> None) ->
        Forall2 (fun f v => last_entry l (name_of f) v) fs vs -> in_turn vs (map snd fs) b -> fields (Named l) fs b
    | F_by_position : forall c fs b, (forall l, c = Named l -> l = [] \/ forall f, In f fs -> fst f = None) ->
        in_turn (values c) (map snd fs) b -> fields c fs b.

    (** A variant: the first one with its name, behind unnamed wrappers. *)
    Definition variant (name : str) (c : composite (value T)) (t : TId) (b : bytes) : Prop :=
      exists u l1 idx fs l2 b', chain (transparent reg) t u /\ reg u = ResTy (TVariant (l1 ++ VInfo name idx fs :: l2)) /\
        ~ In name (map vi_name l1) /\ b = idx :: b' /\ fields c fs b'.

    (** A composite at a struct or tuple, behind unnamed wrappers: the value in an unnamed one-value composite goes to the struct
        itself; in any one-value composite it goes to whatever else is behind the wrappers. *)
    Inductive struct_like (c : composite (value T)) (u : TId) (b : bytes) : Prop :=
    | S_struct : forall fs, reg u = ResTy (TComposite fs) -> (forall v, c <> Unnamed [v]) -> fields c fs b -> struct_like c u b
    | S_tuple : forall ts, reg u = ResTy (TTuple ts) -> length (values c) <> 1%nat -> fields c (map (fun t => (None, t)) ts) b -> struct_like c u b
    | S_struct_one : forall fs v, reg u = ResTy (TComposite fs) -> c = Unnamed [v] -> W v u b -> struct_like c u b
    | S_other_one : forall v, reg u <> ResErr -> (forall fs, reg u <> ResTy (TComposite fs)) -> values c = [v] -> W v u b -> struct_like c u b.

    (** A composite at a type, taken as it is. *)
    Inductive directly (c : composite (value T)) (t : TId) (b : bytes) : Prop :=
    | D_struct : forall u, (exists fs, reg t = ResTy (TComposite fs)) \/ (exists ts, reg t = ResTy (TTuple ts)) ->
        ends_in (transparent reg) t u -> struct_like c u b -> directly c t b
    | D_sequence : forall e pre bs, reg t = ResTy (TSequence e) -> prefix (length (values c)) pre ->
        in_turn (values c) (repeat e (length (values c))) bs -> b = pre ++ bs -> directly c t b
    | D_array : forall e n, reg t = ResTy (TArray e n) -> N.of_nat (length (values c)) = n ->
        in_turn (values c) (repeat e (length (values c))) b -> directly c t b
    | D_bits : forall st o bits, reg t = ResTy (TBitSeq st o) -> Forall2 is_bit (values c) bits -> bits_bytes st o bits b -> directly c t b
    | D_one : forall v, reg t = ResNotFound \/ (exists vs, reg t = ResTy (TVariant vs)) \/ (exists p, reg t = ResTy (TPrim p)) \/ (exists t', reg t = ResTy (TCompact t')) ->
        values c = [v] -> W v t b -> directly c t b.
  End Inside.

  (** Which values can be encoded at [t].  A composite is taken as it is, or as it is for the type inside all the wrappers, or, if it
      has one value, that value is taken for the type inside all the wrappers. *)
  Inductive fits : value T -> TId -> Prop :=
  | Fits_leaf : forall d x t b, leaf d t b -> fits (Val d x) t
  | Fits_variant : forall name c x t b, variant (fun v t _ => fits v t) name c t b -> fits (Val (DVariant name c) x) t
  | Fits_directly : forall c x t b, directly (fun v t _ => fits v t) c t b -> fits (Val (DComposite c) x) t
  | Fits_inside : forall c x t u b, ends_in (wraps reg) t u -> directly (fun v t _ => fits v t) c u b -> fits (Val (DComposite c) x) t
  | Fits_one : forall c x t u v, ends_in (wraps reg) t u -> values c = [v] -> fits v u -> fits (Val (DComposite c) x) t.
  (** Some bytes can be written for the composite taken as it is. *)
  Definition fits_directly (c : composite (value T)) (t : TId) : Prop := exists b, directly (fun v t _ => fits v t) c t b.

  (** Which bytes are written: the three ways of taking a composite are tried in this order. *)
  Inductive writes : value T -> TId -> bytes -> Prop :=
  | Wr_leaf : forall d x t b, leaf d t b -> writes (Val d x) t b
  | Wr_variant : forall name c x t b, variant writes name c t b -> writes (Val (DVariant name c) x) t b
  | Wr_directly : forall c x t b, directly writes c t b -> writes (Val (DComposite c) x) t b
  | Wr_inside : forall c x t u b, ends_in (wraps reg) t u -> ~ fits_directly c t -> directly writes c u b -> writes (Val (DComposite c) x) t b
  | Wr_one : forall c x t u v b, ends_in (wraps reg) t u -> ~ fits_directly c t -> ~ fits_directly c u -> values c = [v] -> writes v u b ->
      writes (Val (DComposite c) x) t b.
End Writes.
