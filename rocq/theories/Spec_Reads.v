(** * Spec_Reads: which data a value is read as, for every type at once (C93).

    One set of rules, written down without looking at hints, visitors or deserializers.  [reads t p x]: at the place [p],
    a type [t] is read to the data [x].  There are four kinds of places because what a type sees depends on where it
    stands: at a value; inside a newtype (or a newtype variant) around a value, where [Option]s and structs are read
    differently; at the list of bits that a struct sees under the reserved key of a bit sequence; at one of those bits. *)
From Verif Require Import Base Value Scale Spec_Scale Serde Spec_Serde Spec_Parts Spec_Maps.

Inductive place (T : Type) : Type :=
| AtValue (v : value T)
| InNewtype (d : vdef (value T))
| AtBits (l : list bool)
| AtBit (b : bool).
Arguments AtValue {T} v.
Arguments InNewtype {T} d.
Arguments AtBits {T} l.
Arguments AtBit {T} b.

Section Views.
  Context {T : Type}.

  (** The value at a place, without its context. *)
  Definition def_at (p : place T) : option (vdef (value T)) :=
    match p with AtValue v => Some (vdef_of v) | InNewtype d => Some d | _ => None end.

  Definition prim_at (p : place T) : option prim :=
    match p with
    | AtBit b => Some (PBool b)
    | _ => match def_at p with Some (DPrim q) => Some q | _ => None end
    end.

  Definition composite_at (p : place T) : option (composite (value T)) :=
    match def_at p with Some (DComposite c) => Some c | _ => None end.

  Definition variant_at (p : place T) : option (str * composite (value T)) :=
    match def_at p with Some (DVariant n c) => Some (n, c) | _ => None end.

  (** The fields of a composite or a variant. *)
  Definition fields_at (p : place T) : option (composite (value T)) :=
    match def_at p with Some (DComposite c) | Some (DVariant _ c) => Some c | _ => None end.

  (** What sequences and tuples are read from. *)
  Definition parts_at (p : place T) : option (list (place T)) :=
    match p with
    | AtBits l => Some (map AtBit l)
    | _ => match fields_at p with Some c => Some (map AtValue (values c)) | None => None end
    end.

  (** What a struct is read from: named entries, or parts in order, with a flag that says whether all parts must be used.
      A variant has none of these unless it stands inside a newtype. *)
  Definition entries_of (c : composite (value T)) : list (str * place T) + bool * list (place T) :=
    match c with
    | Named l => inl (map (fun kv => (fst kv, AtValue (snd kv))) l)
    | Unnamed l => inr (false, map AtValue l)
    end.

  Definition struct_at (p : place T) : option (list (str * place T) + bool * list (place T)) :=
    match p with
    | AtValue (Val (DComposite c) _) | InNewtype (DComposite c) | InNewtype (DVariant _ c) => Some (entries_of c)
    | AtValue (Val (DBits b) _) => Some (inl [(reserved_key, AtBits b)])
    | AtBits l => Some (inr (true, map AtBit l))
    | _ => None
    end.

  (** Where the content of a newtype is read. *)
  Definition content_at (p : place T) : option (place T) :=
    match p with
    | AtValue (Val (DBits _) _) => None
    | AtValue (Val d _) => Some (InNewtype d)
    | InNewtype d => Some (InNewtype d)
    | AtBits [b] => Some (AtBit b)
    | _ => None
    end.
End Views.

Definition integer_in (p : prim) : option Z :=
  match p with PU128 n => Some (Z.of_N n) | PI128 z => Some z | _ => None end.

Definition bytes_in (p : prim) : option bytes :=
  match p with PU256 b | PI256 b => Some b | _ => None end.

Inductive Forall3 {A B C} (R : A -> B -> C -> Prop) : list A -> list B -> list C -> Prop :=
| F3_nil : Forall3 R [] [] []
| F3_cons a b c la lb lc : R a b c -> Forall3 R la lb lc -> Forall3 R (a :: la) (b :: lb) (c :: lc).

(** ** A value read as a [Value] (its context does not matter) *)
Inductive copied {T} : vdef (value T) -> value unit -> Prop :=
| K_prim p : bytes_in p = None -> copied (DPrim p) (primitive p)
| K_256 p b : bytes_in p = Some b -> copied (DPrim p) (unnamed_composite (map vu128 b))
| K_bits b : copied (DBits b) (bit_sequence b)
| K_unnamed l l' : Forall2 (fun v w => copied (vdef_of v) w) l l' -> copied (DComposite (Unnamed l)) (unnamed_composite l')
| K_named l l' : (forall v r, l <> (reserved_key, v) :: r) ->
    Forall2 (fun kv kw => fst kw = fst kv /\ copied (vdef_of (snd kv)) (snd kw)) l l' ->
    copied (DComposite (Named l)) (named_composite l')
| K_reserved v c bs r : fields_at (AtValue v) = Some c ->
    Forall2 (fun w b => vdef_of w = DPrim (PBool b)) (values c) bs ->
    copied (DComposite (Named ((reserved_key, v) :: r))) (bit_sequence bs)
| K_variant_unnamed n l l' : Forall2 (fun v w => copied (vdef_of v) w) l l' -> copied (DVariant n (Unnamed l)) (unnamed_variant n l')
| K_variant_named n l l' : Forall2 (fun kv kw => fst kw = fst kv /\ copied (vdef_of (snd kv)) (snd kw)) l l' ->
    copied (DVariant n (Named l)) (named_variant n l').

(** Fields, one by one; names are kept. *)
Inductive copied_fields {T} : composite (value T) -> composite (value unit) -> Prop :=
| KF_named l l' : Forall2 (fun kv kw => fst kw = fst kv /\ copied (vdef_of (snd kv)) (snd kw)) l l' -> copied_fields (Named l) (Named l')
| KF_unnamed l l' : Forall2 (fun v w => copied (vdef_of v) w) l l' -> copied_fields (Unnamed l) (Unnamed l').

(** The map [m] that remembers the last entry of each key, sorted by key. *)
Definition collects (kvs m : list (str * data)) : Prop :=
  sorted_keys m /\ forall k x, In (k, x) m <-> last_given k kvs x.

(** The names that occur in [known]. *)
Definition among (known : list str) (ks : list str) : list str := filter (fun k => existsb (str_eqb k) known) ks.

Definition name_key : str := s2l "name".
Definition values_key : str := s2l "values".

(** ** The rules *)
Inductive reads {T} : ty -> place T -> data -> Prop :=
(* booleans, integers, chars, strings *)
| R_bool p b : prim_at p = Some (PBool b) -> reads TyBool p (XBool b)
| R_int sg w p q z : prim_at p = Some q -> integer_in q = Some z -> int_range sg w z -> reads (TyInt sg w) p (XInt z)
| R_char p c : prim_at p = Some (PChar c) \/ prim_at p = Some (PString [c]) -> reads TyChar p (XChar c)
| R_string p s : prim_at p = Some (PString s) -> reads TyString p (XString s)
| R_string_char p c : prim_at p = Some (PChar c) -> reads TyString p (XString [c])
| R_string_256 p q s : prim_at p = Some q -> bytes_in q = Some (utf8 s) -> forallb is_scalar s = true -> reads TyString p (XString s)
(* nothing, bytes *)
| R_unit p c : fields_at p = Some c -> values c = [] -> reads TyUnit p XUnit
| R_unit_struct p c : fields_at p = Some c -> values c = [] -> reads TyUnitStruct p XUnitStruct
| R_bytes p c bs : composite_at p = Some c -> Forall2 (fun v b => vdef_of v = DPrim (PU128 b) /\ (b < 256)%N) (values c) bs ->
    reads TyBytes p (XBytes bs)
| R_bytes_256 p q bs : prim_at p = Some q -> bytes_in q = Some bs -> reads TyBytes p (XBytes bs)
| R_bytes_bits : reads TyBytes (AtBits []) (XBytes [])
(* options: only at a value, never inside a newtype *)
| R_none t v : vdef_of v = DVariant (s2l "None") (Unnamed []) -> reads (TyOption t) (AtValue v) XNone
| R_some t v w x : vdef_of v = DVariant (s2l "Some") (Unnamed [w]) -> reads t (AtValue w) x -> reads (TyOption t) (AtValue v) (XSome x)
(* sequences, tuples, maps *)
| R_vec t p ps xs : parts_at p = Some ps -> Forall2 (reads t) ps xs -> reads (TyVec t) p (XVec xs)
| R_tuple ts p ps xs : parts_at p = Some ps -> Forall3 reads ts ps xs -> reads (TyTuple ts) p (XTuple xs)
| R_tuple_struct ts p ps xs : parts_at p = Some ps -> Forall3 reads ts ps xs -> reads (TyTupleStruct ts) p (XTupleStruct xs)
| R_map t p l kvs m : fields_at p = Some (Named l) ->
    Forall2 (fun kv kx => fst kx = fst kv /\ reads t (AtValue (snd kv)) (snd kx)) l kvs -> collects kvs m -> reads (TyMap t) p (XMap m)
| R_map_char t p l kvs m : fields_at p = Some (Named l) -> Forall (fun kv => exists c, fst kv = [c]) l ->
    Forall2 (fun kv kx => fst kx = fst kv /\ reads t (AtValue (snd kv)) (snd kx)) l kvs -> collects kvs m -> reads (TyMapChar t) p (XMap m)
(* newtypes and structs *)
| R_newtype t p q x : content_at p = Some q -> reads t q x -> reads (TyNewtype t) p (XNewtype x)
| R_struct_named fs p l ds : struct_at p = Some (inl l) -> NoDup (among (map fst fs) (map fst l)) ->
    Forall2 (fun ft nx => fst nx = fst ft /\
      ((exists q, In (fst ft, q) l /\ reads (snd ft) q (snd nx)) \/
       (~ In (fst ft) (map fst l) /\ (exists t, snd ft = TyOption t) /\ snd nx = XNone))) fs ds ->
    reads (TyStruct fs) p (XStruct ds)
| R_struct_unnamed fs p all used rest ds : struct_at p = Some (inr (all, used ++ rest)) -> (all = true -> rest = []) ->
    Forall3 (fun ft q nx => fst nx = fst ft /\ reads (snd ft) q (snd nx)) fs used ds ->
    reads (TyStruct fs) p (XStruct ds)
(* enums *)
| R_enum_unit vs p n c : variant_at p = Some (n, c) -> In (n, VsUnit) vs -> values c = [] -> reads (TyEnum vs) p (XEnum n VsUnit)
| R_enum_newtype vs p n c t x : variant_at p = Some (n, c) -> In (n, VsNewtype t) vs ->
    reads t (InNewtype (DComposite c)) x -> reads (TyEnum vs) p (XEnum n (VsNewtype x))
| R_enum_tuple vs p n c ts xs : variant_at p = Some (n, c) -> In (n, VsTuple ts) vs ->
    Forall3 reads ts (map AtValue (values c)) xs -> reads (TyEnum vs) p (XEnum n (VsTuple xs))
| R_enum_struct vs p n c fs ds : variant_at p = Some (n, c) -> In (n, VsStruct fs) vs ->
    reads (TyStruct fs) (InNewtype (DComposite c)) (XStruct ds) -> reads (TyEnum vs) p (XEnum n (VsStruct ds))
(* the types of this crate *)
| R_value p d w : def_at p = Some d -> copied d w -> reads TyValue p (XValue w)
| R_value_bits l : reads TyValue (AtBits l) (XValue (unnamed_composite (map vbool l)))
| R_value_bit b : reads TyValue (AtBit b) (XValue (vbool b))
| R_composite p c c' : composite_at p = Some c -> copied_fields c c' -> reads TyComposite p (XComposite c')
| R_composite_256 p q bs : prim_at p = Some q -> bytes_in q = Some bs -> reads TyComposite p (XComposite (Unnamed (map vu128 bs)))
| R_composite_of_bits p b : def_at p = Some (DBits b) ->
    reads TyComposite p (XComposite (Named [(reserved_key, unnamed_composite (map vbool b))]))
| R_composite_bits l : reads TyComposite (AtBits l) (XComposite (Unnamed (map vbool l)))
| R_variant p n c c' : variant_at p = Some (n, c) -> copied_fields c c' -> reads TyVariant p (XVariant n c')
| R_variant_map p l vn vc n c : composite_at p = Some (Named l) ->
    Forall (fun kv => (fst kv = name_key /\ exists s, reads TyString (AtValue (snd kv)) (XString s)) \/
                      (fst kv = values_key /\ exists c', reads TyComposite (AtValue (snd kv)) (XComposite c'))) l ->
    last_given name_key l vn -> reads TyString (AtValue vn) (XString n) ->
    last_given values_key l vc -> reads TyComposite (AtValue vc) (XComposite c) ->
    reads TyVariant p (XVariant n c)
| R_prim p q : prim_at p = Some q -> bytes_in q = None -> reads TyPrim p (XPrim q)
| R_prim_256 p q bs : prim_at p = Some q -> bytes_in q = Some bs -> length bs = 32%nat -> reads TyPrim p (XPrim (PU256 bs))
| R_prim_bytes p l bs : composite_at p = Some (Unnamed l) -> length l = 32%nat ->
    Forall2 (fun v b => number_in v = Some (Z.of_N b) /\ (b < 256)%N) l bs -> reads TyPrim p (XPrim (PU256 bs)).

(** Types as rustc accepts them: no struct with two fields of one name, no enum with two variants of one name. *)
Fixpoint well_named (t : ty) : Prop :=
  match t with
  | TyOption t' | TyVec t' | TyMap t' | TyMapChar t' | TyNewtype t' => well_named t'
  | TyTuple ts | TyTupleStruct ts => fold_right (fun t' P => well_named t' /\ P) True ts
  | TyStruct fs => NoDup (map fst fs) /\ fold_right (fun ft P => match ft with (_, t') => well_named t' end /\ P) True fs
  | TyEnum vs =>
      NoDup (map fst vs) /\
      fold_right (fun nb P => match nb with (_, b) =>
        match b with
        | VsUnit => True
        | VsNewtype t' => well_named t'
        | VsTuple ts => fold_right (fun t' P => well_named t' /\ P) True ts
        | VsStruct fs => NoDup (map fst fs) /\ fold_right (fun ft P => match ft with (_, t') => well_named t' end /\ P) True fs
        end end /\ P) True vs
  | _ => True
  end.
