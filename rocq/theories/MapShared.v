(** * MapShared: [map_context] with closures whose clones also share something (C01). *)
From Verif Require Import Base Value.

(** Each element in turn, handing on what is shared: [into_iter().map(..).collect()]. *)
Definition in_turn {A B G} (h : A -> G -> B * G) : list A -> G -> list B * G :=
  fix go l g :=
    match l with
    | [] => ([], g)
    | a :: l' => let (b, g1) := h a g in let (r, g2) := go l' g1 in (b :: r, g2)
    end.

(** value_type.rs:265-284 (Composite). *)
Definition composite_in_turn {A B G} (h : A -> G -> B * G) (c : composite A) (g : G) : composite B * G :=
  match c with
  | Named l => let (r, g') := in_turn (fun kv g => let (b, g') := h (snd kv) g in ((fst kv, b), g')) l g in (Named r, g')
  | Unnamed l => let (r, g') := in_turn h l g in (Unnamed r, g')
  end.

(** value_type.rs:185-195 (ValueDef), 366-371 (Variant). *)
Definition vdef_in_turn {A B G} (h : A -> G -> B * G) (d : vdef A) (g : G) : vdef B * G :=
  match d with
  | DComposite c => let (c', g') := composite_in_turn h c g in (DComposite c', g')
  | DVariant n c => let (c', g') := composite_in_turn h c g in (DVariant n c', g')
  | DBits b => (DBits b, g)
  | DPrim p => (DPrim p, g)
  end.

(** value_type.rs:127-132 (Value).  A call of [F : Clone + FnMut(T) -> U] may change what the closure owns ([S], copied by
    [Clone]) and what all its clones share with each other and with the rest of the program ([G]: an [Rc<Cell<_>>], a
    global, a log).  Struct fields are evaluated in the order written: the context first, then the children, each with a
    clone of the closure as it is after that call. *)
Fixpoint map_shared {S G T U} (f : S -> G -> T -> U * S * G) (s : S) (v : value T) (g : G) {struct v} : value U * G :=
  match v with
  | Val d ctx =>
      match f s g ctx with
      | (u, s1, g1) => let (d', g2) := vdef_in_turn (fun c g => map_shared f s1 c g) d g1 in (Val d' u, g2)
      end
  end.
