(** * Spec_Loc: what a path in an encode error points to. *)
From Verif Require Import Base Value Registry Spec_Encode.

(** A location: a position or a field name. *)
Inductive loc : Type := LIdx (i : nat) | LField (name : str).

Section Leads.
  Context {T : Type}.
  (** [l] names [x], the [i]th child of a composite or of the fields of a variant: by position or by its name. *)
  Inductive names_child (c : composite (value T)) : loc -> nat -> value T -> Prop :=
  | NC_idx : forall i x, nth_error (values c) i = Some x -> names_child c (LIdx i) i x
  | NC_field : forall l i k x, c = Named l -> nth_error l i = Some (k, x) -> names_child c (LField k) i x.
  (** The fields inside a value, if it has any. *)
  Definition inside (v : value T) : option (composite (value T)) :=
    match vdef_of v with DComposite c | DVariant _ c => Some c | _ => None end.

  (** Following a path literally. *)
  Inductive follows : value T -> list loc -> value T -> Prop :=
  | Fo_here : forall v, follows v [] v
  | Fo_step : forall v c l i x p w, inside v = Some c -> names_child c l i x -> follows x p w -> follows v (l :: p) w.

  Context {TId : Type} (reg : TId -> resolution TId).
  (** The fields a type has, for a given variant name if it is an enum. *)
  Inductive has_fields (t : TId) (v : value T) : list (field TId) -> Prop :=
  | HF_composite : forall c fs, vdef_of v = DComposite c -> reg t = ResTy (TComposite fs) -> has_fields t v fs
  | HF_tuple : forall c ts, vdef_of v = DComposite c -> reg t = ResTy (TTuple ts) -> has_fields t v (map (fun t => (None, t)) ts)
  | HF_variant : forall n c vs i, vdef_of v = DVariant n c -> reg t = ResTy (TVariant vs) -> In i vs -> vi_name i = n -> has_fields t v (vi_fields i).
  (** The type the child of [v] at [l], its [i]th, is meant to have if [v] is meant to have type [t]: that of the field with
      the same name, or that of the field at the same position, or that of the elements. *)
  Inductive part (t : TId) (v : value T) : loc -> nat -> TId -> Prop :=
  | Pa_name : forall fs k i t', has_fields t v fs -> In (Some k, t') fs -> part t v (LField k) i t'
  | Pa_noname : forall fs i t', has_fields t v fs -> In (None, t') fs -> part t v (LField []) i t'
  | Pa_position : forall fs l i n t', has_fields t v fs -> nth_error fs i = Some (n, t') -> part t v l i t'
  | Pa_sequence : forall c l i t', vdef_of v = DComposite c -> reg t = ResTy (TSequence t') -> part t v l i t'
  | Pa_array : forall c l i t' n, vdef_of v = DComposite c -> reg t = ResTy (TArray t' n) -> part t v l i t'.
  (** [leads v t p w t']: [p] leads from the value [v], meant to have type [t], to the value [w] inside it, meant to have
      type [t'].  The path says nothing about wrapper types ([transparent]) and about composites with exactly one value. *)
  Inductive leads : value T -> TId -> list loc -> value T -> TId -> Prop :=
  | Le_here : forall v t, leads v t [] v t
  | Le_step : forall v c t l i x t1 p w t', inside v = Some c -> names_child c l i x -> part t v l i t1 -> leads x t1 p w t' ->
      leads v t (l :: p) w t'
  | Le_value : forall c x y t p w t', values c = [x] -> leads x t p w t' -> leads (Val (DComposite c) y) t p w t'
  | Le_type : forall v t t1 p w t', transparent reg t t1 -> leads v t1 p w t' -> leads v t p w t'.

  (** No composite with exactly one value anywhere. *)
  Inductive no_single : value T -> Prop :=
  | NS : forall v, (forall c x, vdef_of v = DComposite c -> values c <> [x]) ->
      (forall c, inside v = Some c -> Forall no_single (values c)) -> no_single v.
End Leads.
