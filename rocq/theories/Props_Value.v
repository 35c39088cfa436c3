(** * Props_Value: C01, C02, C03 *)
From Verif Require Import Base Value Spec_Value ValueFacts.

(** ** C01 *)
(** Mapping contexts with any stateful cloneable closure keeps the shape, and gives the node at path [p] the context
    the closure returns when it is called after the contexts of the ancestors of [p] only. *)
Theorem C01_map_context : forall (S T U : Type) (f : S -> T -> U * S) (s : S) (v : value T),
  same_shape v (map_context f s v) /\
  forall p n, node_at v p = Some n ->
    option_map ctx_of (node_at (map_context f s v) p)
    = Some (fst (f (run_closure f s (ancestors v p)) (ctx_of n))).
Proof. exact @map_context_spec. Qed.
Print Assumptions C01_map_context.

(** ... and this determines the result. *)
Theorem C01_map_context_unique : forall (S T U : Type) (f : S -> T -> U * S) (s : S) (v : value T) (w : value U),
  same_shape v w ->
  (forall p n, node_at v p = Some n ->
     option_map ctx_of (node_at w p) = Some (fst (f (run_closure f s (ancestors v p)) (ctx_of n)))) ->
  w = map_context f s v.
Proof. exact @map_context_unique. Qed.
Print Assumptions C01_map_context_unique.

Theorem C01_identity : forall (T : Type) (v : value T), map_ctx (fun x => x) v = v.
Proof. exact @map_ctx_id. Qed.
Print Assumptions C01_identity.

Theorem C01_composition : forall (T U W : Type) (f : T -> U) (g : U -> W) (v : value T),
  map_ctx g (map_ctx f v) = map_ctx (fun x => g (f x)) v.
Proof. exact @map_ctx_compose. Qed.
Print Assumptions C01_composition.

Theorem C01_remove_context : forall (T U : Type) (v : value T) (w : value U),
  remove_context v = remove_context w <-> same_shape v w.
Proof. exact @remove_context_same_shape. Qed.
Print Assumptions C01_remove_context.

(** A counting closure: the two siblings both get 1 (they do not share state), the grandchild gets 2. *)
Example C01_example :
  let leaf := Val (DPrim (PBool true)) tt in
  map_context (fun (s : nat) (_ : unit) => (s, S s)) 0
    (Val (DComposite (Unnamed [leaf; Val (DVariant (s2l "A") (Named [(s2l "x", leaf)])) tt])) tt)
  = Val (DComposite (Unnamed [Val (DPrim (PBool true)) 1;
        Val (DVariant (s2l "A") (Named [(s2l "x", Val (DPrim (PBool true)) 2)])) 1])) 0.
Proof. reflexivity. Qed.

(** ** C02 *)
Theorem C02_at : forall (T : Type) (v : value T) (loc : location) (c : value T),
  at_value v loc = Some c <-> lookup_is v loc c.
Proof. exact @at_value_lookup. Qed.
Print Assumptions C02_at.

Theorem C02_at_path : forall (T : Type) (path : list location) (v x : value T),
  at_path v path = Some x <-> lookup_path v path x.
Proof. exact @at_path_lookup. Qed.
Print Assumptions C02_at_path.

Theorem C02_at_child : forall (T : Type) (v : value T) (loc : location) (c : value T),
  at_value v loc = Some c -> In c (fields_of v).
Proof. intros T v loc c H. apply at_value_lookup in H. exact (lookup_is_child v c loc H). Qed.
Print Assumptions C02_at_child.

(** Lookups commute with mapping contexts. *)
Theorem C02_at_map_context : forall (T U : Type) (g : T -> U) (v : value T) (loc : location),
  at_value (map_ctx g v) loc = option_map (map_ctx g) (at_value v loc).
Proof. exact @at_map_ctx. Qed.
Print Assumptions C02_at_map_context.

Example C02_example :
  let v := named_composite [(s2l "a", vu128 1); (s2l "b", unnamed_variant (s2l "V") [vbool true]); (s2l "a", vu128 2)] in
  at_path v [LStr (s2l "a")] = Some (vu128 1) /\ at_path v [LIdx 2] = Some (vu128 2) /\
  at_path v [LStr (s2l "b"); LIdx 0] = Some (vbool true) /\ at_path v [LStr (s2l "b"); LIdx 1] = None /\
  at_path v [LStr (s2l "c"); LIdx 1] = None.
Proof. repeat split. Qed.

(** ** C03 *)
Theorem C03_accessors : forall (T : Type) (v : value T),
  (forall b, as_bool v = Some b <-> label_of v = LbPrim (PBool b)) /\
  (forall c, as_char v = Some c <-> label_of v = LbPrim (PChar c)) /\
  (forall n, as_u128 v = Some n <-> label_of v = LbPrim (PU128 n)) /\
  (forall z, as_i128 v = Some z <-> label_of v = LbPrim (PI128 z)) /\
  (forall s, as_str v = Some s <-> label_of v = LbPrim (PString s)).
Proof.
  intros T v. destruct v as [[[l|l]|n [l|l]|b|[]] cx]; cbn; repeat split; intro H; try discriminate; congruence.
Qed.
Print Assumptions C03_accessors.

Theorem C03_values : forall (A : Type) (c : composite A),
  length (values c) = clen c /\ (cis_empty c = true <-> clen c = 0) /\
  forall i, at_composite c (LIdx i) = nth_error (values c) i.
Proof. intros A c. exact (conj (values_len c) (conj (is_empty_len c) (values_at c))). Qed.
Print Assumptions C03_values.

(** Conversions from Rust integers keep the number: unsigned types embed in u128, signed ones in i128. *)
Theorem C03_from_integers :
  (forall n, (0 <= n < 2 ^ 128)%Z -> exists m, from_uint n = PU128 m /\ Z.of_N m = n) /\
  (forall n, (- 2 ^ 127 <= n < 2 ^ 127)%Z -> from_int n = PI128 n).
Proof.
  split; [|exact from_int_exact].
  intros n H. exists (Z.to_N n). split; [exact (from_uint_exact n H)|apply Z2N.id; lia].
Qed.
Print Assumptions C03_from_integers.

Theorem C03_from_bytes : forall b : bytes,
  (forall i, at_value (from_bytes b) (LIdx i) = option_map vu128 (nth_error b i))
  /\ (forall s, at_value (from_bytes b) (LStr s) = None)
  /\ map (@as_u128 unit) (fields_of (from_bytes b)) = map Some b.
Proof. exact from_bytes_spec. Qed.
Print Assumptions C03_from_bytes.

Example C03_example : as_u128 (vu128 7) = Some 7%N /\ as_i128 (vu128 7) = None /\
  from_int (-5) = PI128 (-5) /\ from_uint 5 = PU128 5.
Proof. repeat split. Qed.
