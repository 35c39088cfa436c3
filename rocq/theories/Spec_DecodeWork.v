(** * Spec_DecodeWork: vocabulary for the work and the recursion of decoding (C79). *)
From Verif Require Import Base Value Registry Spec_Scale Spec_Cost Spec_Decode.
Open Scope N_scope.

(** Like [weights] of Spec_Size, a [Compact] counting too: a bound [m t] for the number of values of a type [t] without the items of
    sequences and the fields of variants in it; [S] bounds one item of a sequence and the fields of one variant. *)
Record call_weights {TId} (reg : TId -> resolution TId) (m : TId -> N) (S : N) : Prop := {
  c_pos : forall t, 1 <= m t;
  c_composite : forall t fs, reg t = ResTy (TComposite fs) -> 1 + total (map (fun f => m (snd f)) fs) <= m t;
  c_tuple : forall t ts, reg t = ResTy (TTuple ts) -> 1 + total (map m ts) <= m t;
  c_array : forall t e n, reg t = ResTy (TArray e n) -> 1 + n * m e <= m t;
  c_compact : forall t e, reg t = ResTy (TCompact e) -> 1 + m e <= m t;
  c_sequence : forall t e, reg t = ResTy (TSequence e) -> m e <= S;
  c_variant : forall t vs v, reg t = ResTy (TVariant vs) -> In v vs -> total (map (fun f => m (snd f)) (vi_fields v)) <= S
}.

(** How deeply types are nested in each other without a sequence or a variant in between ([h t] levels below [t]); at most [R] below the
    items of sequences and the fields of variants. *)
Record ranks {TId} (reg : TId -> resolution TId) (h : TId -> N) (R : N) : Prop := {
  r_inside : forall t u, inside reg u t -> h u < h t;
  r_sequence : forall t e, reg t = ResTy (TSequence e) -> h e <= R;
  r_variant : forall t vs v f, reg t = ResTy (TVariant vs) -> In v vs -> In f (vi_fields v) -> h (snd f) <= R
}.
