(** * Value: model of [/repo/src/value_type.rs] and [/repo/src/at.rs]. *)
From Verif Require Import Base.

(** ** The data type *)

(** [Primitive], value_type.rs:388-403.  [U128]/[I128] payloads are mathematical numbers; the invariant that they fit
    128 bits is [prim_wf].  [U256]/[I256] hold their 32 bytes. *)
Inductive prim : Type :=
| PBool (b : bool)
| PChar (c : char)
| PString (s : str)
| PU128 (n : N)
| PI128 (z : Z)
| PU256 (b : bytes)
| PI256 (b : bytes).

(** [Composite<T>], value_type.rs:214-219, over an arbitrary child type. *)
Inductive composite (A : Type) : Type :=
| Named (l : list (str * A))
| Unnamed (l : list A).
Arguments Named {A} l.
Arguments Unnamed {A} l.

(** [ValueDef<T>], value_type.rs:172-181; [Variant<T>] (340-345) is the pair (name, values). *)
Inductive vdef (A : Type) : Type :=
| DComposite (c : composite A)
| DVariant (name : str) (c : composite A)
| DBits (b : list bool)
| DPrim (p : prim).
Arguments DComposite {A} c.
Arguments DVariant {A} name c.
Arguments DBits {A} b.
Arguments DPrim {A} p.

(** [Value<T>], value_type.rs:29-34. *)
Inductive value (T : Type) : Type :=
| Val (d : vdef (value T)) (ctx : T).
Arguments Val {T} d ctx.

Definition vdef_of {T} (v : value T) : vdef (value T) := match v with Val d _ => d end.
Definition ctx_of {T} (v : value T) : T := match v with Val _ c => c end.

(** [Composite::values], value_type.rs:249-254 (and [into_values], 257-262). *)
Definition values {A} (c : composite A) : list A :=
  match c with Named l => map snd l | Unnamed l => l end.

(** [Composite::len], value_type.rs:233-238. *)
Definition clen {A} (c : composite A) : nat :=
  match c with Named l => length l | Unnamed l => length l end.

(** [Composite::is_empty], value_type.rs:241-246. *)
Definition cis_empty {A} (c : composite A) : bool :=
  match c with
  | Named l => match l with [] => true | _ => false end
  | Unnamed l => match l with [] => true | _ => false end
  end.

(** Immediate children of a node. *)
Definition children {A} (d : vdef A) : list A :=
  match d with
  | DComposite c => values c
  | DVariant _ c => values c
  | DBits _ => []
  | DPrim _ => []
  end.

(** ** [map_context] with a stateful closure
    value_type.rs:127-132 (Value), 185-195 (ValueDef), 265-284 (Composite), 366-371 (Variant).
    [F : Clone + FnMut(T) -> U] is a state [s : S] with [f : S -> T -> U * S]; cloning copies the state.  The context of
    the node itself is mapped first (field order of the struct literal at line 129), then every child receives
    a clone ([f.clone()], 275 and 279) of the closure as it is after that call. *)
Definition composite_map {A B} (g : A -> B) (c : composite A) : composite B :=
  match c with
  | Named l => Named (map (fun kv => (fst kv, g (snd kv))) l)
  | Unnamed l => Unnamed (map g l)
  end.

Definition vdef_map {A B} (g : A -> B) (d : vdef A) : vdef B :=
  match d with
  | DComposite c => DComposite (composite_map g c)
  | DVariant n c => DVariant n (composite_map g c)
  | DBits b => DBits b
  | DPrim p => DPrim p
  end.

Fixpoint map_context {S T U} (f : S -> T -> U * S) (s : S) (v : value T) {struct v} : value U :=
  match v with
  | Val d ctx =>
      let us := f s ctx in
      Val (vdef_map (fun c => map_context f (snd us) c) d) (fst us)
  end.

(** A stateless closure. *)
Definition pure_fn {T U} (g : T -> U) : unit -> T -> U * unit := fun _ t => (g t, tt).
Definition map_ctx {T U} (g : T -> U) (v : value T) : value U := map_context (pure_fn g) tt v.

(** [remove_context], value_type.rs:123-125. *)
Definition remove_context {T} (v : value T) : value unit := map_ctx (fun _ => tt) v.

(** ** Constructors, value_type.rs:36-115 (those on [Value<()>]). *)
Definition without_context (d : vdef (value unit)) : value unit := Val d tt.
Definition named_composite (l : list (str * value unit)) : value unit := Val (DComposite (Named l)) tt.
Definition unnamed_composite (l : list (value unit)) : value unit := Val (DComposite (Unnamed l)) tt.
Definition variant (n : str) (c : composite (value unit)) : value unit := Val (DVariant n c) tt.
Definition named_variant (n : str) (l : list (str * value unit)) : value unit := Val (DVariant n (Named l)) tt.
Definition unnamed_variant (n : str) (l : list (value unit)) : value unit := Val (DVariant n (Unnamed l)) tt.
Definition bit_sequence (b : list bool) : value unit := Val (DBits b) tt.
Definition primitive (p : prim) : value unit := Val (DPrim p) tt.
Definition vstring (s : str) : value unit := primitive (PString s).
Definition vbool (b : bool) : value unit := primitive (PBool b).
Definition vchar (c : char) : value unit := primitive (PChar c).
Definition vu128 (n : N) : value unit := primitive (PU128 n).
Definition vi128 (z : Z) : value unit := primitive (PI128 z).
(** [from_bytes], value_type.rs:104-107: [b as u128] is the identity on byte values. *)
Definition from_bytes (b : bytes) : value unit := unnamed_composite (map vu128 b).

(** [impl_primitive_type!], value_type.rs:457-498: [val as u128] / [val as i128] from a type of width [w] bits.
    The cast zero-extends (sign-extends) and so keeps the number; the wrap is written out. *)
Definition as_u128_cast (n : Z) : N := Z.to_N (n mod 2 ^ 128).
Definition as_i128_cast (n : Z) : Z := ((n + 2 ^ 127) mod 2 ^ 128 - 2 ^ 127)%Z.
Definition from_uint (n : Z) : prim := PU128 (as_u128_cast n).
Definition from_int (n : Z) : prim := PI128 (as_i128_cast n).

(** ** Accessors, value_type.rs:134-167 and 415-448. *)
Definition as_bool {T} (v : value T) : option bool :=
  match vdef_of v with DPrim (PBool b) => Some b | _ => None end.
Definition as_char {T} (v : value T) : option char :=
  match vdef_of v with DPrim (PChar c) => Some c | _ => None end.
Definition as_u128 {T} (v : value T) : option N :=
  match vdef_of v with DPrim (PU128 n) => Some n | _ => None end.
Definition as_i128 {T} (v : value T) : option Z :=
  match vdef_of v with DPrim (PI128 n) => Some n | _ => None end.
Definition as_str {T} (v : value T) : option str :=
  match vdef_of v with DPrim (PString s) => Some s | _ => None end.

(** ** [At], at.rs *)

(** [Location], at.rs:152-160. *)
Inductive location : Type := LStr (s : str) | LIdx (n : nat).

(** at.rs:80 [find_map] over the named fields. *)
Fixpoint find_field {A} (s : str) (l : list (str * A)) : option A :=
  match l with
  | [] => None
  | (n, v) :: l' => if str_eqb s n then Some v else find_field s l'
  end.

(** [At for Composite], at.rs:75-93. *)
Definition at_composite {A} (c : composite A) (loc : location) : option A :=
  match loc with
  | LStr s => match c with Named l => find_field s l | Unnamed _ => None end
  | LIdx n =>
      match c with
      | Named l => option_map snd (nth_error l n)
      | Unnamed l => nth_error l n
      end
  end.

(** [At for Variant], at.rs:95-99, is [at_composite] on its values; [At for Value], at.rs:101-109. *)
Definition at_value {T} (v : value T) (loc : location) : option (value T) :=
  match vdef_of v with
  | DComposite c => at_composite c loc
  | DVariant _ c => at_composite c loc
  | _ => None
  end.

(** [At for Option<&T>], at.rs:111-115. *)
Definition at_opt {T} (o : option (value T)) (loc : location) : option (value T) :=
  obind o (fun v => at_value v loc).

(** A chain [v.at(l1).at(l2)...]. *)
Definition at_path {T} (v : value T) (path : list location) : option (value T) :=
  fold_left at_opt path (Some v).

(** ** Well-formedness: the payloads a Rust value can hold. *)
Definition prim_wf (p : prim) : bool :=
  match p with
  | PBool _ => true
  | PChar c => is_scalar c
  | PString s => forallb is_scalar s
  | PU128 n => (n <? 2 ^ 128)%N
  | PI128 z => ((- 2 ^ 127 <=? z) && (z <? 2 ^ 127))%Z
  | PU256 b | PI256 b => Nat.eqb (length b) 32 && forallb (fun x => x <? 256)%N b
  end.

Fixpoint vsize {T} (v : value T) : nat :=
  match v with
  | Val d _ => S (match d with
                  | DComposite (Named l) | DVariant _ (Named l) => list_sum (map (fun kv => vsize (snd kv)) l)
                  | DComposite (Unnamed l) | DVariant _ (Unnamed l) => list_sum (map vsize l)
                  | _ => 0
                  end)
  end.

(** ** Induction principle *)
Section ValueInd.
  Context {T : Type} (P : value T -> Prop).
  Context (H : forall d ctx, Forall P (children d) -> P (Val d ctx)).

  Fixpoint value_rect' (v : value T) : P v :=
    match v with
    | Val d ctx =>
        H d ctx
          (match d as d0 return Forall P (children d0) with
           | DComposite c | DVariant _ c =>
               match c as c0 return Forall P (values c0) with
               | Named l =>
                   (fix go (l : list (str * value T)) : Forall P (map snd l) :=
                      match l with
                      | [] => Forall_nil P
                      | kv :: l' => Forall_cons (snd kv) (value_rect' (snd kv)) (go l')
                      end) l
               | Unnamed l =>
                   (fix go (l : list (value T)) : Forall P l :=
                      match l with
                      | [] => Forall_nil P
                      | x :: l' => Forall_cons x (value_rect' x) (go l')
                      end) l
               end
           | DBits _ => Forall_nil P
           | DPrim _ => Forall_nil P
           end)
    end.
End ValueInd.

Definition value_ind' {T} (P : value T -> Prop)
  (H : forall d ctx, Forall P (children d) -> P (Val d ctx)) : forall v, P v := value_rect' P H.

(** A four-case variant of the principle. *)
Lemma value_ind4 {T} (P : value T -> Prop)
  (HN : forall l ctx, Forall (fun kv => P (snd kv)) l -> P (Val (DComposite (Named l)) ctx))
  (HU : forall l ctx, Forall P l -> P (Val (DComposite (Unnamed l)) ctx))
  (HVN : forall n l ctx, Forall (fun kv => P (snd kv)) l -> P (Val (DVariant n (Named l)) ctx))
  (HVU : forall n l ctx, Forall P l -> P (Val (DVariant n (Unnamed l)) ctx))
  (HB : forall b ctx, P (Val (DBits b) ctx))
  (HP : forall p ctx, P (Val (DPrim p) ctx)) : forall v, P v.
Proof.
  apply value_ind'. intros d ctx Hc.
  destruct d as [[l|l]|n [l|l]|b|p]; cbn [children values] in Hc.
  - apply HN. now rewrite Forall_map in Hc.
  - now apply HU.
  - apply HVN. now rewrite Forall_map in Hc.
  - now apply HVU.
  - apply HB.
  - apply HP.
Qed.
