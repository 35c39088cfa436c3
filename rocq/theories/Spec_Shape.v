(** * Spec_Shape: what it means that two type ids, perhaps of two registries, describe the same shape.

    Nothing here mentions how values are encoded or decoded.  A relation [R] between the type ids of two registries is a correspondence
    when related ids are answered alike: the same kind of type, the same names, indices and lengths, and related ids in the same places. *)
From Verif Require Import Base Value Registry.

Section Shape.
  Context {A B : Type} (R : A -> B -> Prop).

  Definition same_field (f : field A) (g : field B) : Prop := fst f = fst g /\ R (snd f) (snd g).
  Definition same_variant (v : vinfo A) (w : vinfo B) : Prop :=
    vi_name v = vi_name w /\ vi_index v = vi_index w /\ Forall2 same_field (vi_fields v) (vi_fields w).

  Inductive same_type : tydef A -> tydef B -> Prop :=
  | ST_composite fs gs : Forall2 same_field fs gs -> same_type (TComposite fs) (TComposite gs)
  | ST_variant vs ws : Forall2 same_variant vs ws -> same_type (TVariant vs) (TVariant ws)
  | ST_sequence t u : R t u -> same_type (TSequence t) (TSequence u)
  | ST_array t u n : R t u -> same_type (TArray t n) (TArray u n)
  | ST_tuple ts us : Forall2 R ts us -> same_type (TTuple ts) (TTuple us)
  | ST_prim p : same_type (TPrim p) (TPrim p)
  | ST_compact t u : R t u -> same_type (TCompact t) (TCompact u)
  | ST_bits s o : same_type (TBitSeq s o) (TBitSeq s o).

  Inductive same_answer : resolution A -> resolution B -> Prop :=
  | SA_err : same_answer ResErr ResErr
  | SA_not_found : same_answer ResNotFound ResNotFound
  | SA_type x y : same_type x y -> same_answer (ResTy x) (ResTy y).

  (** Related ids are answered alike. *)
  Definition alike (reg1 : A -> resolution A) (reg2 : B -> resolution B) : Prop := forall t u, R t u -> same_answer (reg1 t) (reg2 u).

  (** The ids in two lists of fields are related, and the names are the same. *)
  Definition same_fields : list (field A) -> list (field B) -> Prop := Forall2 same_field.
End Shape.

(** Two composites (variants, values) with the same names and data in the same places; [P] relates what is in them. *)
Inductive same_composite {X Y : Type} (P : X -> Y -> Prop) : composite X -> composite Y -> Prop :=
| SC_named l m : Forall2 (fun x y => fst x = fst y /\ P (snd x) (snd y)) l m -> same_composite P (Named l) (Named m)
| SC_unnamed l m : Forall2 P l m -> same_composite P (Unnamed l) (Unnamed m).
Inductive same_def {X Y : Type} (P : X -> Y -> Prop) : vdef X -> vdef Y -> Prop :=
| SD_composite c d : same_composite P c d -> same_def P (DComposite c) (DComposite d)
| SD_variant n c d : same_composite P c d -> same_def P (DVariant n c) (DVariant n d)
| SD_bits b : same_def P (DBits b) (DBits b)
| SD_prim p : same_def P (DPrim p) (DPrim p).
(** Values with the same data whose contexts are related by [Q], node by node. *)
Inductive corresponds {C D : Type} (Q : C -> D -> Prop) : value C -> value D -> Prop :=
| Corresponds d e c c' : Q c c' -> same_def (corresponds Q) d e -> corresponds Q (Val d c) (Val e c').

(** Two results: both errors, related by [E], or both successes, related by [P], with the same bytes left. *)
Inductive same_result {X Y XE YE L : Type} (P : X -> Y -> Prop) (E : XE -> YE -> Prop) : result (X * L) XE -> result (Y * L) YE -> Prop :=
| SR_ok x y rest : P x y -> same_result P E (Ok (x, rest)) (Ok (y, rest))
| SR_err e e' : E e e' -> same_result P E (Err e) (Err e').

(** The parts of a type. *)
Inductive part {A : Type} (reg : A -> resolution A) : A -> A -> Prop :=
| P_field t fs n u : reg t = ResTy (TComposite fs) -> In (n, u) fs -> part reg t u
| P_variant t vs v n u : reg t = ResTy (TVariant vs) -> In v vs -> In (n, u) (vi_fields v) -> part reg t u
| P_sequence t u : reg t = ResTy (TSequence u) -> part reg t u
| P_array t u n : reg t = ResTy (TArray u n) -> part reg t u
| P_tuple t ts u : reg t = ResTy (TTuple ts) -> In u ts -> part reg t u
| P_compact t u : reg t = ResTy (TCompact u) -> part reg t u.
(** [u] is [t], a part of [t], a part of a part, and so on. *)
Inductive needed {A : Type} (reg : A -> resolution A) (t : A) : A -> Prop :=
| Needed_itself : needed reg t t
| Needed_part u w : needed reg t u -> part reg u w -> needed reg t w.

(** The same type with its ids renamed. *)
Definition rename_fields {A B} (f : A -> B) (l : list (field A)) : list (field B) := map (fun x => (fst x, f (snd x))) l.
Definition rename_type {A B} (f : A -> B) (x : tydef A) : tydef B :=
  match x with
  | TComposite fs => TComposite (rename_fields f fs)
  | TVariant vs => TVariant (map (fun v => VInfo (vi_name v) (vi_index v) (rename_fields f (vi_fields v))) vs)
  | TSequence t => TSequence (f t)
  | TArray t n => TArray (f t) n
  | TTuple ts => TTuple (map f ts)
  | TPrim p => TPrim p
  | TCompact t => TCompact (f t)
  | TBitSeq s o => TBitSeq s o
  end.
Definition rename_answer {A B} (f : A -> B) (x : resolution A) : resolution B :=
  match x with ResErr => ResErr | ResNotFound => ResNotFound | ResTy d => ResTy (rename_type f d) end.
