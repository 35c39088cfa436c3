(** * Spec_Content: vocabulary of C71. *)
From Verif Require Import Base Value Spec_Value Serde Spec_Serde SerdeContent.

(** No integer of up to 128 bits and no variant anywhere in the value. *)
Definition no_numbers_or_variants {T} (v : value T) : Prop :=
  forall path w, node_at v path = Some w ->
    match w with
    | Val (DPrim (PU128 _)) _ | Val (DPrim (PI128 _)) _ | Val (DVariant _ _) _ => False
    | _ => True
    end.

(** The buffer of such a value. *)
Fixpoint content_of {T} (v : value T) : content :=
  match v with
  | Val d _ =>
      match d with
      | DComposite (Named l) => KMap (map (fun kv => (fst kv, content_of (snd kv))) l)
      | DComposite (Unnamed l) => KSeq (map content_of l)
      | DBits b => KMap [(reserved_key, KSeq (map KBool b))]
      | DPrim (PBool b) => KBool b
      | DPrim (PChar c) => KChar c
      | DPrim (PString s) => KString s
      | DPrim (PU256 b) | DPrim (PI256 b) => KBytes b
      | _ => KUnit
      end
  end.
