(** * Spec_Rust: Rust types that derive both the SCALE traits (parity-scale-codec [Encode], scale-info [TypeInfo]) and the serde traits (C67).
    Nothing here mentions scale-value: [scale] is what the derived [Encode] writes, [type_info] what the derived [TypeInfo] registers, [serde_of] what the
    derived serde impls see. *)
From Verif Require Import Base Registry Spec_Scale Serde.
Open Scope N_scope.

Inductive rust : Type :=
| RBool
| RInt (sg : bool) (w : width)                       (* u8 .. i128 *)
| RCompact (w : width)                               (* #[codec(compact)] x: u32 *)
| RString
| RUnit
| ROption (r : rust)
| RVec (r : rust)
| RArray (r : rust) (n : nat)
| RTuple (l : list rust)
| RUnitStruct                                        (* struct A; *)
| RNewtype (r : rust)                                (* struct A(B); *)
| RTupleStruct (l : list rust)
| RStruct (l : list (str * rust))                    (* struct A { b: B, .. } *)
| REnum (l : list (str * (N * vshape rust))).        (* name, #[codec(index)], fields *)

(** The type as serde sees it. *)
Definition shape_map {A B} (f : A -> B) (b : vshape A) : vshape B :=
  match b with
  | VsUnit => VsUnit
  | VsNewtype a => VsNewtype (f a)
  | VsTuple l => VsTuple (map f l)
  | VsStruct l => VsStruct (map (fun na => match na with (n, a) => (n, f a) end) l)
  end.
Fixpoint serde_of (r : rust) : ty :=
  match r with
  | RBool => TyBool
  | RInt sg w => TyInt sg (int_bits w)
  | RCompact w => TyInt false (int_bits w)
  | RString => TyString
  | RUnit => TyUnit
  | ROption r' => TyOption (serde_of r')
  | RVec r' => TyVec (serde_of r')
  | RArray r' n => TyTuple (repeat (serde_of r') n)
  | RTuple l => TyTuple (map serde_of l)
  | RUnitStruct => TyUnitStruct
  | RNewtype r' => TyNewtype (serde_of r')
  | RTupleStruct l => TyTupleStruct (map serde_of l)
  | RStruct l => TyStruct (map (fun nr => match nr with (n, r') => (n, serde_of r') end) l)
  | REnum l => TyEnum (map (fun v => match v with (n, (_, b)) => (n, shape_map serde_of b) end) l)
  end.

(** [d.encode()] *)
Inductive scale : rust -> data -> bytes -> Prop :=
| S_false : scale RBool (XBool false) [0]
| S_true : scale RBool (XBool true) [1]
| S_uint : forall w n bs, le_enc (int_size w) n bs -> scale (RInt false w) (XInt (Z.of_N n)) bs
| S_int : forall w z bs, (- 2 ^ (Z.of_N (int_bits w) - 1) <= z < 2 ^ (Z.of_N (int_bits w) - 1))%Z ->
    le_enc (int_size w) (Z.to_N (z mod 2 ^ Z.of_N (int_bits w))) bs -> scale (RInt true w) (XInt z) bs
| S_compact : forall w n bs, n < 2 ^ int_bits w -> compact_enc n bs -> scale (RCompact w) (XInt (Z.of_N n)) bs
| S_string : forall s pre, forallb is_scalar s = true -> N.of_nat (length (utf8 s)) < 2 ^ 32 ->
    compact_enc (N.of_nat (length (utf8 s))) pre -> scale RString (XString s) (pre ++ utf8 s)
| S_unit : scale RUnit XUnit []
| S_none : forall r, scale (ROption r) XNone [0]
| S_some : forall r d bs, scale r d bs -> scale (ROption r) (XSome d) (1 :: bs)
| S_vec : forall r l pre bs, N.of_nat (length l) < 2 ^ 32 -> compact_enc (N.of_nat (length l)) pre -> scales (repeat r (length l)) l bs ->
    scale (RVec r) (XVec l) (pre ++ bs)
| S_array : forall r n l bs, scales (repeat r n) l bs -> scale (RArray r n) (XTuple l) bs
| S_tuple : forall rs l bs, scales rs l bs -> scale (RTuple rs) (XTuple l) bs
| S_unit_struct : scale RUnitStruct XUnitStruct []
| S_newtype : forall r d bs, scale r d bs -> scale (RNewtype r) (XNewtype d) bs
| S_tuple_struct : forall rs l bs, scales rs l bs -> scale (RTupleStruct rs) (XTupleStruct l) bs
| S_struct : forall fs l bs, scales (map snd fs) l bs -> scale (RStruct fs) (XStruct (combine (map fst fs) l)) bs
| S_enum : forall vs n idx b x bs, In (n, (idx, b)) vs -> scale_body b x bs -> scale (REnum vs) (XEnum n x) (idx :: bs)
with scale_body : vshape rust -> vshape data -> bytes -> Prop :=
| SB_unit : scale_body VsUnit VsUnit []
| SB_newtype : forall r d bs, scale r d bs -> scale_body (VsNewtype r) (VsNewtype d) bs
| SB_tuple : forall rs l bs, scales rs l bs -> scale_body (VsTuple rs) (VsTuple l) bs
| SB_struct : forall fs l bs, scales (map snd fs) l bs -> scale_body (VsStruct fs) (VsStruct (combine (map fst fs) l)) bs
with scales : list rust -> list data -> bytes -> Prop :=
| Ss_nil : scales [] [] []
| Ss_cons : forall r rs d l b bs, scale r d b -> scales rs l bs -> scales (r :: rs) (d :: l) (b ++ bs).
Scheme scale_mind := Minimality for scale Sort Prop
  with scale_body_mind := Minimality for scale_body Sort Prop
  with scales_mind := Minimality for scales Sort Prop.
Combined Scheme scale_ind3 from scale_mind, scale_body_mind, scales_mind.

(** [R::type_info()] in a registry.  [braces] allows [struct A {}] and [enum A { B {} }], braces without a field. *)
Section Info.
  Context {TId : Type} (reg : TId -> resolution TId) (braces : bool).
  Inductive type_info : TId -> rust -> Prop :=
  | I_bool : forall t, reg t = ResTy (TPrim PtBool) -> type_info t RBool
  | I_uint : forall t w, reg t = ResTy (TPrim (PtU w)) -> type_info t (RInt false w)
  | I_int : forall t w, reg t = ResTy (TPrim (PtI w)) -> type_info t (RInt true w)
  | I_compact : forall t t' w, reg t = ResTy (TCompact t') -> reg t' = ResTy (TPrim (PtU w)) -> type_info t (RCompact w)
  | I_string : forall t, reg t = ResTy (TPrim PtStr) -> type_info t RString
  | I_unit : forall t, reg t = ResTy (TTuple []) -> type_info t RUnit
  | I_option : forall t t' r, reg t = ResTy (TVariant [VInfo (s2l "None") 0 []; VInfo (s2l "Some") 1 [(None, t')]]) -> type_info t' r -> type_info t (ROption r)
  | I_vec : forall t t' r, reg t = ResTy (TSequence t') -> type_info t' r -> type_info t (RVec r)
  | I_array : forall t t' r n, reg t = ResTy (TArray t' (N.of_nat n)) -> type_info t' r -> type_info t (RArray r n)
  | I_tuple : forall t ts rs, reg t = ResTy (TTuple ts) -> type_infos ts rs -> type_info t (RTuple rs)
  | I_unit_struct : forall t, reg t = ResTy (TComposite []) -> type_info t RUnitStruct
  | I_newtype : forall t t' r, reg t = ResTy (TComposite [(None, t')]) -> type_info t' r -> type_info t (RNewtype r)
  | I_tuple_struct : forall t fs rs, reg t = ResTy (TComposite fs) -> fields_info fs (VsTuple rs) -> type_info t (RTupleStruct rs)
  | I_struct : forall t fs l, reg t = ResTy (TComposite fs) -> fields_info fs (VsStruct l) -> type_info t (RStruct l)
  | I_enum : forall t vs l, reg t = ResTy (TVariant vs) -> NoDup (map fst l) -> NoDup (map vi_index vs) -> Forall (fun v => vi_index v < 256) vs ->
      variants_info vs l -> type_info t (REnum l)
  (** The fields of a struct or a variant. *)
  with fields_info : list (field TId) -> vshape rust -> Prop :=
  | F_unit : fields_info [] VsUnit
  | F_newtype : forall t r, type_info t r -> fields_info [(None, t)] (VsNewtype r)
  | F_tuple : forall ts rs, type_infos ts rs -> fields_info (map (fun t => (None, t)) ts) (VsTuple rs)
  | F_struct : forall ts l, (braces = false -> l <> []) -> NoDup (map fst l) -> type_infos ts (map snd l) ->
      fields_info (combine (map (fun nr => Some (fst nr)) l) ts) (VsStruct l)
  with variants_info : list (vinfo TId) -> list (str * (N * vshape rust)) -> Prop :=
  | V_nil : variants_info [] []
  | V_cons : forall n idx fs b vs l, fields_info fs b -> variants_info vs l -> variants_info (VInfo n idx fs :: vs) ((n, (idx, b)) :: l)
  with type_infos : list TId -> list rust -> Prop :=
  | Is_nil : type_infos [] []
  | Is_cons : forall t ts r rs, type_info t r -> type_infos ts rs -> type_infos (t :: ts) (r :: rs).
End Info.
