(** * Spec_Serde: vocabulary of the serde properties (C39-C46, C50-C55). *)
From Verif Require Import Base Value Spec_Value Serde.

(** The key [serde] uses for bit sequences. *)
Definition reserved_key : str := s2l "__bitvec__values__".

(** A node that reading a [Value] out of a [Value] keeps: not a 256-bit integer, and not a named composite that starts
    with the reserved key. *)
Definition node_survives {T} (w : value T) : Prop :=
  match w with
  | Val (DPrim (PU256 _)) _ | Val (DPrim (PI256 _)) _ => False
  | Val (DComposite (Named ((k, _) :: _))) _ => k <> reserved_key
  | _ => True
  end.

(** Every node of the tree survives. *)
Definition survives {T} (v : value T) : Prop := forall path w, node_at v path = Some w -> node_survives w.

(** No node of the tree is a variant. *)
Definition no_variants {T} (v : value T) : Prop :=
  forall path n c ctx, node_at v path <> Some (Val (DVariant n c) ctx).

(** No node is a bit sequence. *)
Definition no_bit_sequences {T} (v : value T) : Prop :=
  forall path b ctx, node_at v path <> Some (Val (DBits b) ctx).

(** The values inside the value-typed data that survive a round trip through [Serialize]: no variants inside either. *)
Definition plain {T} (v : value T) : Prop := survives v /\ no_variants v.

(** What [to_value] makes of a [Value]: variants become maps with the keys name and values, bit sequences maps with the
    reserved key, 256-bit integers sequences of their bytes. *)
Fixpoint flatten {T} (v : value T) : value unit :=
  match v with
  | Val d _ =>
      match d with
      | DComposite c => Val (DComposite (composite_map flatten c)) tt
      | DVariant n c => named_composite [(s2l "name", vstring n); (s2l "values", Val (DComposite (composite_map flatten c)) tt)]
      | DBits b => named_composite [(reserved_key, unnamed_composite (map vbool b))]
      | DPrim (PU256 b) | DPrim (PI256 b) => unnamed_composite (map vu128 b)
      | DPrim p => primitive p
      end
  end.

(** The number a primitive value up to 128 bits holds. *)
Definition number_in {T} (v : value T) : option Z :=
  match v with
  | Val (DPrim (PU128 n)) _ => Some (Z.of_N n)
  | Val (DPrim (PI128 z)) _ => Some z
  | _ => None
  end.

Definition primitive_in {T} (p : prim) (ctx : T) : value T := Val (DPrim p) ctx.

(** Range of the Rust integer type with [w] bits. *)
Definition int_range (sg : bool) (w : N) (z : Z) : Prop :=
  if sg then (- 2 ^ (Z.of_N w - 1) <= z < 2 ^ (Z.of_N w - 1))%Z else (0 <= z < 2 ^ Z.of_N w)%Z.

(** Composites and variants. *)
Definition has_fields {T} (v : value T) : Prop :=
  match v with Val (DComposite _) _ | Val (DVariant _ _) _ => True | _ => False end.

(** ** Types *)
Fixpoint ty_wf (t : ty) : Prop :=
  match t with
  | TyInt _ w => In w [8; 16; 32; 64; 128]%N
  | TyOption t' | TyVec t' | TyMap t' | TyMapChar t' => ty_wf t'
  | TyTuple ts => fold_right (fun t' P => ty_wf t' /\ P) True ts
  | TyTupleStruct ts => length ts <> 1%nat /\ fold_right (fun t' P => ty_wf t' /\ P) True ts
  | TyNewtype _ => False
  | TyStruct fs => NoDup (map fst fs) /\ fold_right (fun ft P => match ft with (_, t') => ty_wf t' end /\ P) True fs
  | TyEnum vs =>
      NoDup (map fst vs) /\
      fold_right (fun nb P => match nb with (_, b) =>
        match b with
        | VsUnit => True
        | VsNewtype _ => False
        | VsTuple ts => length ts <> 1%nat /\ fold_right (fun t' P => ty_wf t' /\ P) True ts
        | VsStruct fs => NoDup (map fst fs) /\ fold_right (fun ft P => match ft with (_, t') => ty_wf t' end /\ P) True fs
        end end /\ P) True vs
  | _ => True
  end.

(** Keys of a [BTreeMap] are strictly increasing. *)
Fixpoint increasing (l : list str) : Prop :=
  match l with
  | [] => True
  | k :: r => match r with [] => True | k' :: _ => str_ltb k k' = true end /\ increasing r
  end.

Fixpoint all2 {A B} (R : A -> B -> Prop) (l : list A) (l' : list B) : Prop :=
  match l, l' with
  | [], [] => True
  | x :: r, y :: r' => R x y /\ all2 R r r'
  | _, _ => False
  end.

Definition apply_to {A} (P : A -> Prop) (x : A) : Prop := P x.

(** Data of a type.  For [Value]-like types: the data that the round trip is claimed for. *)
Fixpoint of_type (t : ty) : data -> Prop :=
  match t with
  | TyBool => fun d => exists b, d = XBool b
  | TyInt sg w => fun d => exists z, d = XInt z /\ in_int sg w z = true
  | TyChar => fun d => exists c, d = XChar c
  | TyString => fun d => exists s, d = XString s
  | TyUnit => fun d => d = XUnit
  | TyBytes => fun d => exists b, d = XBytes b /\ Forall (fun x => (x < 256)%N) b
  | TyOption t' => fun d => d = XNone \/ exists x, d = XSome x /\ of_type t' x
  | TyVec t' => fun d => exists l, d = XVec l /\ Forall (of_type t') l
  | TyTuple ts => fun d => exists l, d = XTuple l /\ all2 apply_to (map of_type ts) l
  | TyMap t' => fun d => exists l, d = XMap l /\ increasing (map fst l) /\ Forall (fun kv => of_type t' (snd kv)) l
  | TyMapChar t' => fun d => exists l, d = XMap l /\ increasing (map fst l) /\ Forall (fun kv => length (fst kv) = 1%nat /\ of_type t' (snd kv)) l
  | TyUnitStruct => fun d => d = XUnitStruct
  | TyNewtype t' => fun d => exists x, d = XNewtype x /\ of_type t' x
  | TyTupleStruct ts => fun d => exists l, d = XTupleStruct l /\ all2 apply_to (map of_type ts) l
  | TyStruct fs => fun d => exists l, d = XStruct l /\ map fst l = map fst fs /\
      all2 apply_to (map (fun nt => match nt with (_, t') => of_type t' end) fs) (map snd l)
  | TyEnum vs => fun d => exists n b, d = XEnum n b /\
      match find_field n (map (fun nb => match nb with (m, b') =>
               (m, match b' with
                   | VsUnit => fun x => x = VsUnit
                   | VsNewtype t' => fun x => exists y, x = VsNewtype y /\ of_type t' y
                   | VsTuple ts => fun x => exists l, x = VsTuple l /\ all2 apply_to (map of_type ts) l
                   | VsStruct fs => fun x => exists l, x = VsStruct l /\ map fst l = map fst fs /\
                       all2 apply_to (map (fun nt => match nt with (_, t') => of_type t' end) fs) (map snd l)
                   end) end) vs) with
      | Some P => P b
      | None => False
      end
  | TyValue => fun d => exists v, d = XValue v /\ plain v
  | TyComposite => fun d => exists c, d = XComposite c /\ Forall plain (values c)
  | TyVariant => fun d => exists n c, d = XVariant n c /\ Forall plain (values c)
  | TyPrim => fun d => exists p, d = XPrim p /\ prim_wf p = true /\ forall b, p <> PI256 b
  end.

(** ** Reading *)

(** What the fields of a struct become when read by name: no known name is given twice; each field comes from the entry
    of its name, an absent optional field is [None]; every entry with a known name can be read. *)
Definition fields_by_name {T} (fs : list (str * ty)) (l : list (str * value T)) (ds : list (str * data)) : Prop :=
  NoDup (filter (fun k => existsb (str_eqb k) (map fst fs)) (map fst l)) /\
  Forall2 (fun ft nd => fst nd = fst ft /\
    ((exists v, In (fst ft, v) l /\ from_value (snd ft) v = Ok (snd nd)) \/
     (~ In (fst ft) (map fst l) /\ (exists u, snd ft = TyOption u) /\ snd nd = XNone))) fs ds /\
  (forall k v t, In (k, v) l -> In (k, t) fs -> exists x, from_value t v = Ok x).

(** ... and by position: values beyond the last field are not looked at. *)
Definition fields_by_position {T} (fs : list (str * ty)) (l : list (value T)) (ds : list (str * data)) : Prop :=
  exists used surplus, l = used ++ surplus /\ length used = length fs /\
    Forall2 (fun fv nd => fst nd = fst (fst fv) /\ from_value (snd (fst fv)) (snd fv) = Ok (snd nd)) (combine fs used) ds.

(** Types whose data cannot be read back from inside a newtype. *)
Fixpoint never_in_newtype (t : ty) : Prop :=
  match t with
  | TyBool | TyInt _ _ | TyChar | TyString | TyUnit | TyBytes | TyOption _ | TyMap _ | TyMapChar _ | TyUnitStruct | TyEnum _ | TyVariant | TyPrim => True
  | TyTuple ts | TyTupleStruct ts => length ts <> 1%nat
  | TyNewtype t' => never_in_newtype t'
  | TyVec _ | TyStruct _ | TyValue | TyComposite => False
  end.

(** No named composite starts with the reserved key. *)
Definition no_reserved_key {T} (v : value T) : Prop :=
  forall path k w l ctx, node_at v path = Some (Val (DComposite (Named ((k, w) :: l))) ctx) -> k <> reserved_key.

(** A value with its 256-bit integers replaced by unnamed composites of their bytes. *)
Fixpoint reread {T} (v : value T) : value unit :=
  match v with
  | Val d _ =>
      match d with
      | DComposite c => Val (DComposite (composite_map reread c)) tt
      | DVariant n c => Val (DVariant n (composite_map reread c)) tt
      | DBits b => Val (DBits b) tt
      | DPrim (PU256 b) | DPrim (PI256 b) => unnamed_composite (map vu128 b)
      | DPrim p => Val (DPrim p) tt
      end
  end.

Definition bools_in (d : data) : list bool :=
  match d with XVec l => map (fun x => match x with XBool b => b | _ => false end) l | _ => [] end.

(** ** Writing *)
Definition stringlike (d : sd) : Prop := match d with SStr _ | SChar _ => True | _ => False end.

(** No float anywhere, and every key of a map is a string or a char. *)
Fixpoint serializable (d : sd) : Prop :=
  match d with
  | SFloat => False
  | SSome x | SNewtypeStruct x | SNewtypeVariant _ x => serializable x
  | SSeq l | STuple l | STupleStruct l | STupleVariant _ l => fold_right (fun x P => serializable x /\ P) True l
  | SMap l => fold_right (fun (kv : sd * sd) P => (let (k, x) := kv in stringlike k /\ serializable x) /\ P) True l
  | SStruct l | SStructVariant _ l => fold_right (fun (nx : str * sd) P => (let (_, x) := nx in serializable x) /\ P) True l
  | _ => True
  end.

(** ** Through another format *)

(** No named composite and no variant with named fields starts with the reserved key. *)
Definition no_reserved_key_in_variants {T} (v : value T) : Prop :=
  forall path n k w l ctx, node_at v path = Some (Val (DVariant n (Named ((k, w) :: l))) ctx) -> k <> reserved_key.

(** What reading a [Value] back from a document of it gives: variants become maps, 256-bit integers sequences of bytes. *)
Fixpoint doc_read {T} (v : value T) : value unit :=
  match v with
  | Val d _ =>
      match d with
      | DComposite c => Val (DComposite (composite_map doc_read c)) tt
      | DVariant n c => named_composite [(s2l "name", vstring n); (s2l "values", Val (DComposite (composite_map doc_read c)) tt)]
      | DBits b => Val (DBits b) tt
      | DPrim (PU256 b) | DPrim (PI256 b) => unnamed_composite (map vu128 b)
      | DPrim p => Val (DPrim p) tt
      end
  end.
