(** * Spec_Convert: data of one Rust type read as another (C95).

    [converts t x u y]: [x] of type [t], turned into a value with [to_value] and read back with [from_value] as a [u], is [y]. *)
From Verif Require Import Base Value Scale Spec_Scale Serde Spec_Serde Spec_Maps Spec_Reads Spec_ToValue.

(** Data that is a list of items without names, with the type of each. *)
Inductive elements : ty -> data -> list (ty * data) -> Prop :=
| El_unit : elements TyUnit XUnit []
| El_unit_struct : elements TyUnitStruct XUnitStruct []
| El_vec t xs : elements (TyVec t) (XVec xs) (map (pair t) xs)
| El_tuple ts xs : elements (TyTuple ts) (XTuple xs) (combine ts xs)
| El_tuple_struct ts xs : elements (TyTupleStruct ts) (XTupleStruct xs) (combine ts xs)
| El_newtype t x : elements (TyNewtype t) (XNewtype x) [(t, x)]
| El_bytes bs : elements TyBytes (XBytes bs) (map (fun b => (TyInt false 8, XInt (Z.of_N b))) bs).

Definition field_items (fs : list (str * ty)) (ds : list (str * data)) : list (str * (ty * data)) :=
  map (fun p => (fst (fst p), (snd (fst p), snd (snd p)))) (combine fs ds).

(** Data that is a list of items with names. *)
Inductive entries : ty -> data -> list (str * (ty * data)) -> Prop :=
| En_struct fs ds : entries (TyStruct fs) (XStruct ds) (field_items fs ds)
| En_map t m : entries (TyMap t) (XMap m) (map (fun kx => (fst kx, (t, snd kx))) m)
| En_map_char t m : entries (TyMapChar t) (XMap m) (map (fun kx => (fst kx, (t, snd kx))) m).

(** Either, names dropped. *)
Definition listed (t : ty) (x : data) (l : list (ty * data)) : Prop :=
  elements t x l \/ exists l', entries t x l' /\ l = map snd l'.

(** The same for the body of an enum's variant. *)
Inductive body_elements : vshape ty -> vshape data -> list (ty * data) -> Prop :=
| Be_unit : body_elements VsUnit VsUnit []
| Be_newtype t x : body_elements (VsNewtype t) (VsNewtype x) [(t, x)]
| Be_tuple ts xs : body_elements (VsTuple ts) (VsTuple xs) (combine ts xs).
Inductive body_entries : vshape ty -> vshape data -> list (str * (ty * data)) -> Prop :=
| Bn_struct fs ds : body_entries (VsStruct fs) (VsStruct ds) (field_items fs ds).
Definition body_listed (b : vshape ty) (x : vshape data) (l : list (ty * data)) : Prop :=
  body_elements b x l \/ exists l', body_entries b x l' /\ l = map snd l'.

Inductive converts : ty -> data -> ty -> data -> Prop :=
(* scalars *)
| C_bool b : converts TyBool (XBool b) TyBool (XBool b)
| C_int sg w sg' w' z : int_range sg' w' z -> converts (TyInt sg w) (XInt z) (TyInt sg' w') (XInt z)
| C_char c : converts TyChar (XChar c) TyChar (XChar c)
| C_char_string c : converts TyChar (XChar c) TyString (XString [c])
| C_string s : converts TyString (XString s) TyString (XString s)
| C_string_char c : converts TyString (XString [c]) TyChar (XChar c)
(* nothing, bytes *)
| C_unit t x : listed t x [] -> converts t x TyUnit XUnit
| C_unit_struct t x : listed t x [] -> converts t x TyUnitStruct XUnitStruct
| C_bytes t x l bs : listed t x l -> Forall2 (fun tx b => (exists w, tx = (TyInt false w, XInt (Z.of_N b))) /\ (b < 256)%N) l bs ->
    converts t x TyBytes (XBytes bs)
(* options *)
| C_none t u : converts (TyOption t) XNone (TyOption u) XNone
| C_some t x u y : converts t x u y -> converts (TyOption t) (XSome x) (TyOption u) (XSome y)
| C_enum_none vs u : In (s2l "None", VsUnit) vs -> converts (TyEnum vs) (XEnum (s2l "None") VsUnit) (TyOption u) XNone
| C_enum_some vs t x u y : In (s2l "Some", VsNewtype t) vs -> converts t x u y ->
    converts (TyEnum vs) (XEnum (s2l "Some") (VsNewtype x)) (TyOption u) (XSome y)
(* sequences, tuples: item by item, names ignored *)
| C_vec t x l u ys : listed t x l -> Forall2 (fun tx y => converts (fst tx) (snd tx) u y) l ys -> converts t x (TyVec u) (XVec ys)
| C_tuple t x l us ys : listed t x l -> Forall3 (fun u tx y => converts (fst tx) (snd tx) u y) us l ys -> converts t x (TyTuple us) (XTuple ys)
| C_tuple_struct t x l us ys : listed t x l -> Forall3 (fun u tx y => converts (fst tx) (snd tx) u y) us l ys ->
    converts t x (TyTupleStruct us) (XTupleStruct ys)
(* maps *)
| C_map t x l u kys m : entries t x l -> Forall2 (fun kt ky => fst ky = fst kt /\ converts (fst (snd kt)) (snd (snd kt)) u (snd ky)) l kys ->
    collects kys m -> converts t x (TyMap u) (XMap m)
| C_map_char t x l u kys m : entries t x l -> Forall (fun kt => exists c, fst kt = [c]) l ->
    Forall2 (fun kt ky => fst ky = fst kt /\ converts (fst (snd kt)) (snd (snd kt)) u (snd ky)) l kys ->
    collects kys m -> converts t x (TyMapChar u) (XMap m)
(* newtypes are read from their content *)
| C_newtype t x u y : (forall u', u <> TyOption u') -> converts t x u y -> converts t x (TyNewtype u) (XNewtype y)
(* structs: by name, or by position *)
| C_struct t x l gs ds : entries t x l -> NoDup (map fst l) ->
    Forall2 (fun gu ny => fst ny = fst gu /\
      ((exists tx, In (fst gu, tx) l /\ converts (fst tx) (snd tx) (snd gu) (snd ny)) \/
       (~ In (fst gu) (map fst l) /\ (exists u, snd gu = TyOption u) /\ snd ny = XNone))) gs ds ->
    converts t x (TyStruct gs) (XStruct ds)
| C_struct_position t x used rest gs ds : elements t x (used ++ rest) ->
    Forall3 (fun gu tx ny => fst ny = fst gu /\ converts (fst tx) (snd tx) (snd gu) (snd ny)) gs used ds ->
    converts t x (TyStruct gs) (XStruct ds)
(* enums: the name of the variant stays *)
| C_enum_unit vs n b bx us : In (n, b) vs -> body_listed b bx [] -> In (n, VsUnit) us ->
    converts (TyEnum vs) (XEnum n bx) (TyEnum us) (XEnum n VsUnit)
| C_enum_tuple vs n b bx l us ts ys : In (n, b) vs -> body_listed b bx l -> In (n, VsTuple ts) us ->
    Forall3 (fun u tx y => converts (fst tx) (snd tx) u y) ts l ys ->
    converts (TyEnum vs) (XEnum n bx) (TyEnum us) (XEnum n (VsTuple ys))
| C_enum_struct vs n b bx l us gs ds : In (n, b) vs -> body_entries b bx l -> In (n, VsStruct gs) us -> NoDup (map fst l) ->
    Forall2 (fun gu ny => fst ny = fst gu /\
      ((exists tx, In (fst gu, tx) l /\ converts (fst tx) (snd tx) (snd gu) (snd ny)) \/
       (~ In (fst gu) (map fst l) /\ (exists u, snd gu = TyOption u) /\ snd ny = XNone))) gs ds ->
    converts (TyEnum vs) (XEnum n bx) (TyEnum us) (XEnum n (VsStruct ds))
| C_enum_struct_position vs n b bx used rest us gs ds : In (n, b) vs -> body_elements b bx (used ++ rest) -> In (n, VsStruct gs) us ->
    Forall3 (fun gu tx ny => fst ny = fst gu /\ converts (fst tx) (snd tx) (snd gu) (snd ny)) gs used ds ->
    converts (TyEnum vs) (XEnum n bx) (TyEnum us) (XEnum n (VsStruct ds)).

(** ** Types all of whose data can be read as another type. *)
Inductive fields_fit (F : ty -> ty -> Prop) (fs gs : list (str * ty)) : Prop :=
| Ff : Forall (fun gu => (exists t, In (fst gu, t) fs /\ F t (snd gu)) \/ (~ In (fst gu) (map fst fs) /\ exists u, snd gu = TyOption u)) gs ->
    fields_fit F fs gs.
Inductive body_fits (F : ty -> ty -> Prop) : vshape ty -> vshape ty -> Prop :=
| Bf_unit : body_fits F VsUnit VsUnit
| Bf_tuple ts us : Forall2 F ts us -> body_fits F (VsTuple ts) (VsTuple us)
| Bf_struct fs gs : fields_fit F fs gs -> body_fits F (VsStruct fs) (VsStruct gs)
| Bf_newtype_struct t g u : F t u -> body_fits F (VsNewtype t) (VsStruct [(g, u)]).

Inductive fits : ty -> ty -> Prop :=
| F_bool : fits TyBool TyBool
| F_int sg w sg' w' : (sg = sg' /\ (w <= w')%N) \/ (sg = false /\ sg' = true /\ (w < w')%N) -> (0 < w)%N -> fits (TyInt sg w) (TyInt sg' w')
| F_char : fits TyChar TyChar
| F_char_string : fits TyChar TyString
| F_string : fits TyString TyString
| F_unit t u : In t [TyUnit; TyUnitStruct; TyTuple []; TyTupleStruct []; TyStruct []] -> In u [TyUnit; TyUnitStruct] -> fits t u
| F_bytes : fits TyBytes TyBytes
| F_bytes_vec t : t = TyVec (TyInt false 8) -> fits t TyBytes
| F_vec_bytes u : fits (TyInt false 8) u -> fits TyBytes (TyVec u)
| F_option t u : fits t u -> fits (TyOption t) (TyOption u)
| F_vec t u : fits t u -> fits (TyVec t) (TyVec u)
| F_tuple_vec t ts u : In t [TyTuple ts; TyTupleStruct ts] -> Forall (fun t' => fits t' u) ts -> fits t (TyVec u)
| F_tuple t ts us : In t [TyTuple ts; TyTupleStruct ts] -> Forall2 fits ts us -> fits t (TyTuple us)
| F_tuple_struct t ts us : In t [TyTuple ts; TyTupleStruct ts] -> Forall2 fits ts us -> fits t (TyTupleStruct us)
| F_map t t' u : In t [TyMap t'; TyMapChar t'] -> fits t' u -> fits t (TyMap u)
| F_map_char t u : fits t u -> fits (TyMapChar t) (TyMapChar u)
| F_struct_map fs u : Forall (fun ft => fits (snd ft) u) fs -> fits (TyStruct fs) (TyMap u)
| F_newtype t u : (forall u', u <> TyOption u') -> fits t u -> fits t (TyNewtype u)
| F_struct fs gs : fields_fit fits fs gs -> fits (TyStruct fs) (TyStruct gs)
| F_tuple_to_struct t ts rest gs : In t [TyTuple (ts ++ rest); TyTupleStruct (ts ++ rest)] -> Forall2 (fun t' gu => fits t' (snd gu)) ts gs -> fits t (TyStruct gs)
| F_enum vs us : Forall (fun nb => exists b', In (fst nb, b') us /\ body_fits fits (snd nb) b') vs -> fits (TyEnum vs) (TyEnum us).
