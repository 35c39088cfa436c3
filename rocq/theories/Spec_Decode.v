(** * Spec_Decode: vocabulary for the decoder theorems. *)
From Verif Require Import Base Value Registry.
Open Scope N_scope.

Section SpecDecode.
  Context {TId : Type} (reg : TId -> resolution TId).

  (** [u] is what is found inside the [Compact] layers of [t]. *)
  Inductive behind_compact : TId -> TId -> Prop :=
  | BC_refl : forall t, behind_compact t t
  | BC_step : forall t t' u, reg t = ResTy (TCompact t') -> behind_compact t' u -> behind_compact t u.

  (** A value labelled with type ids, each node with the id of the type it has. *)
  Inductive labelled : TId -> value TId -> Prop :=
  | L_node : forall t u d, behind_compact t u -> labelled_node u d -> labelled t (Val d u)
  with labelled_node : TId -> vdef (value TId) -> Prop :=
  | L_prim : forall u p x, reg u = ResTy (TPrim p) -> labelled_node u (DPrim x)
  | L_bits : forall u st o b, reg u = ResTy (TBitSeq st o) -> labelled_node u (DBits b)
  | L_composite : forall u fs c, reg u = ResTy (TComposite fs) -> labelled_all (map snd fs) (values c) -> labelled_node u (DComposite c)
  | L_tuple : forall u ts c, reg u = ResTy (TTuple ts) -> labelled_all ts (values c) -> labelled_node u (DComposite c)
  | L_sequence : forall u t' c, reg u = ResTy (TSequence t') -> labelled_all (repeat t' (length (values c))) (values c) -> labelled_node u (DComposite c)
  | L_array : forall u t' n c, reg u = ResTy (TArray t' n) -> labelled_all (repeat t' (N.to_nat n)) (values c) -> labelled_node u (DComposite c)
  | L_variant : forall u vs v c, reg u = ResTy (TVariant vs) -> In v vs -> labelled_all (map snd (vi_fields v)) (values c) ->
      labelled_node u (DVariant (vi_name v) c)
  with labelled_all : list TId -> list (value TId) -> Prop :=
  | LA_nil : labelled_all [] []
  | LA_cons : forall t ts v vs, labelled t v -> labelled_all ts vs -> labelled_all (t :: ts) (v :: vs).

  (** Decoding a [t] can reach a [t'] before any byte was read. *)
  Inductive inside : TId -> TId -> Prop :=
  | In_field : forall t fs name t', reg t = ResTy (TComposite fs) -> In (name, t') fs -> inside t' t
  | In_tuple : forall t ts t', reg t = ResTy (TTuple ts) -> In t' ts -> inside t' t
  | In_array : forall t n t', reg t = ResTy (TArray t' n) -> n <> 0 -> inside t' t
  | In_compact : forall t t', reg t = ResTy (TCompact t') -> inside t' t.

  (** The first thing decoded for a [t] is a [t']. *)
  Inductive first_in : TId -> TId -> Prop :=
  | F_field : forall t name t' fs, reg t = ResTy (TComposite ((name, t') :: fs)) -> first_in t' t
  | F_tuple : forall t t' ts, reg t = ResTy (TTuple (t' :: ts)) -> first_in t' t
  | F_array : forall t n t', reg t = ResTy (TArray t' n) -> n <> 0 -> first_in t' t.

  (** The variants of an enum have different names. *)
  Definition variant_names_differ : Prop := forall t vs, reg t = ResTy (TVariant vs) -> NoDup (map vi_name vs).
End SpecDecode.
