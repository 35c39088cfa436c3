(** * Spec_Migrate: types whose values can be put into other types. *)
From Verif Require Import Base Value Registry Spec_Scale Spec_Encode.
Open Scope N_scope.

Section Migrate.
  Context {TId TId' : Type} (reg : TId -> resolution TId) (reg' : TId' -> resolution TId') (X' : ext).
  (** [R t t']: the values of type [t] are to be put into type [t']. *)
  Context (R : TId -> TId' -> Prop).

  (** The integers of an integer type. *)
  Definition holds (p : pty) (z : Z) : Prop :=
    match p with
    | PtU w => (0 <= z < 2 ^ Z.of_N (int_bits w))%Z
    | PtI w => (- 2 ^ (Z.of_N (int_bits w) - 1) <= z < 2 ^ (Z.of_N (int_bits w) - 1))%Z
    | _ => False
    end.
  Definition is_int (p : pty) : Prop := exists w, p = PtU w \/ p = PtI w.

  (** Fields go to fields of the same name (the last such field counts; fields may be left out), *)
  Definition by_name (fs : list (field TId)) (fs' : list (field TId')) : Prop :=
    fs <> [] /\ ~ In None (map fst fs) /\ fs' <> [] /\ ~ In None (map fst fs') /\
    Forall (fun f' => exists l1 t l2, fs = l1 ++ (fst f', t) :: l2 /\ ~ In (fst f') (map fst l2) /\ R t (snd f')) fs'.
  (** or, if one side has no names, in order. *)
  Definition by_position (fs : list (field TId)) (fs' : list (field TId')) : Prop :=
    Forall2 (fun f f' => R (snd f) (snd f')) fs fs' /\ (fs = [] \/ In None (map fst fs) \/ forall f', In f' fs' -> fst f' = None).

  (** A struct or tuple, and the type inside all newtypes it consists of. *)
  Definition inside (t' u : TId') : Prop := ((exists fs, reg' t' = ResTy (TComposite fs)) \/ exists ts, reg' t' = ResTy (TTuple ts)) /\
    chain (transparent reg') t' u /\ (forall w, ~ transparent reg' u w) /\ reg' u <> ResErr.

  (** Where the values of a type with this description may go. *)
  Inductive goes : tydef TId -> TId' -> Prop :=
  (** integers: to integer types that hold all of them, behind any wrappers, compact or not *)
  | G_int : forall p t' u p', chain (wraps reg') t' u -> reg' u = ResTy (TPrim p') -> is_int p -> is_int p' -> (forall z, holds p z -> holds p' z) -> goes (TPrim p) t'
  | G_int_compact : forall p t' u k u' w, chain (wraps reg') t' u -> reg' u = ResTy (TCompact k) -> chain (wraps reg') k u' -> reg' u' = ResTy (TPrim (PtU w)) ->
      is_int p -> (forall z, holds p z -> holds (PtU w) z) -> goes (TPrim p) t'
  (** characters: to characters, or their codes to integers *)
  | G_char : forall t' u, chain (wraps reg') t' u -> reg' u = ResTy (TPrim PtChar) -> x_char X' = true -> goes (TPrim PtChar) t'
  | G_code : forall t' u p', chain (wraps reg') t' u -> reg' u = ResTy (TPrim p') -> is_int p' -> (forall z, (0 <= z < 0x110000)%Z -> holds p' z) -> goes (TPrim PtChar) t'
  | G_bool : forall t' u, chain (wraps reg') t' u -> reg' u = ResTy (TPrim PtBool) -> goes (TPrim PtBool) t'
  | G_str : forall t' u, chain (wraps reg') t' u -> reg' u = ResTy (TPrim PtStr) -> goes (TPrim PtStr) t'
  | G_256 : forall p t' u, p = PtU256 \/ p = PtI256 -> chain (wraps1 reg') t' u -> reg' u = ResTy (TPrim PtU256) \/ reg' u = ResTy (TPrim PtI256) -> x_256 X' = true -> goes (TPrim p) t'
  | G_bits : forall st o t' u st' o', chain (wraps reg') t' u -> reg' u = ResTy (TBitSeq st' o') -> goes (TBitSeq st o) t'
  (** a compact type: where its content may go *)
  | G_compact : forall k t', R k t' -> goes (TCompact k) t'
  (** structs and tuples, but not tuple-like ones of one field *)
  | G_struct : forall fs t' fs', reg' t' = ResTy (TComposite fs') -> by_name fs fs' \/ (by_position fs fs' /\ length fs' <> 1%nat) -> goes (TComposite fs) t'
  | G_struct_tuple : forall fs t' ts', reg' t' = ResTy (TTuple ts') -> length ts' <> 1%nat -> Forall2 (fun f t => R (snd f) t) fs ts' -> goes (TComposite fs) t'
  | G_tuple : forall ts t' ts', reg' t' = ResTy (TTuple ts') -> length ts' <> 1%nat -> Forall2 R ts ts' -> goes (TTuple ts) t'
  | G_tuple_struct : forall ts t' fs', reg' t' = ResTy (TComposite fs') -> length fs' <> 1%nat -> Forall2 (fun t f => R t (snd f)) ts fs' -> goes (TTuple ts) t'
  (** newtypes: their content goes to whatever is inside all newtypes (so newtypes go to newtypes of any depth); the content of a struct
      with one field goes there too if that is not a struct; and without newtypes to a primitive, enum or compact type *)
  | G_newtype : forall d a t' u, d = TComposite [(None, a)] \/ d = TTuple [a] -> inside t' u -> R a u -> goes d t'
  | G_unwrap : forall n a t' u, inside t' u -> (forall fs, reg' u <> ResTy (TComposite fs)) -> R a u -> goes (TComposite [(n, a)]) t'
  | G_unwrap_atom : forall d n a t', d = TComposite [(n, a)] \/ d = TTuple [a] -> atom reg' t' -> R a t' -> goes d t'
  (** enums: every variant to the (first) variant of its name, behind newtypes *)
  | G_variant : forall vs t' u vs', chain (transparent reg') t' u -> reg' u = ResTy (TVariant vs') ->
      Forall (fun v => exists l1 idx fs' l2, vs' = l1 ++ VInfo (vi_name v) idx fs' :: l2 /\ ~ In (vi_name v) (map vi_name l1) /\
        (by_name (vi_fields v) fs' \/ by_position (vi_fields v) fs')) vs -> goes (TVariant vs) t'
  (** lists: element by element *)
  | G_sequence : forall e t' e', reg' t' = ResTy (TSequence e') -> R e e' -> goes (TSequence e) t'
  | G_array_sequence : forall e n t' e', reg' t' = ResTy (TSequence e') -> R e e' -> goes (TArray e n) t'
  | G_array : forall e n t' e', reg' t' = ResTy (TArray e' n) -> R e e' -> goes (TArray e n) t'.

  (** All of this, for all pairs of [R] and therefore at any depth (types may be recursive). *)
  Definition migration : Prop := forall t t' d, R t t' -> reg t = ResTy d -> goes d t'.
End Migrate.
