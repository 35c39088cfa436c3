(** * Spec_Size: vocabulary for the size of decoded values (C74). *)
From Verif Require Import Base Value Registry Spec_Scale Spec_Cost.
Open Scope N_scope.

(** A bound [m t] for the number of values a type [t] holds "by itself", that is, without the items of sequences and the fields
    of variants; and a bound [S] for what one item of a sequence, or the fields of one variant, hold by themselves.  Such
    bounds exist unless a type contains itself directly (not through a sequence or a variant). *)
Record weights {TId} (reg : TId -> resolution TId) (m : TId -> N) (S : N) : Prop := {
  w_pos : forall t, 1 <= m t;
  w_composite : forall t fs, reg t = ResTy (TComposite fs) -> 1 + total (map (fun f => m (snd f)) fs) <= m t;
  w_tuple : forall t ts, reg t = ResTy (TTuple ts) -> 1 + total (map m ts) <= m t;
  w_array : forall t e n, reg t = ResTy (TArray e n) -> 1 + n * m e <= m t;
  w_compact : forall t e, reg t = ResTy (TCompact e) -> m e <= m t;
  w_sequence : forall t e, reg t = ResTy (TSequence e) -> m e <= S;
  w_variant : forall t vs v, reg t = ResTy (TVariant vs) -> In v vs -> total (map (fun f => m (snd f)) (vi_fields v)) <= S
}.

(** Bytes held in the leaves of a value: text, 256-bit integers, bits. *)
Fixpoint leaf_bytes {T} (v : value T) : N :=
  match v with
  | Val d _ => match d with
               | DComposite c | DVariant _ c => total (values (composite_map leaf_bytes c))
               | DBits b => N.of_nat (length b) / 8
               | DPrim (PString s) => N.of_nat (length (utf8 s))
               | DPrim (PU256 b) | DPrim (PI256 b) => N.of_nat (length b)
               | DPrim _ => 0
               end
  end.
