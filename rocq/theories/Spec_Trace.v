(** * Spec_Trace: what a located decoding error says. *)
From Verif Require Import Base Value Registry Spec_Scale Trace.
Open Scope N_scope.

(** The same value with every I256 turned into a U256 of the same bytes. *)
Definition i256_as_u256 (p : prim) : prim := match p with PI256 b => PU256 b | _ => p end.
Fixpoint untag {T} (v : value T) : value T :=
  match v with
  | Val d ctx => Val (match d with
                      | DComposite c => DComposite (composite_map untag c)
                      | DVariant n c => DVariant n (composite_map untag c)
                      | DBits b => DBits b
                      | DPrim p => DPrim (i256_as_u256 p)
                      end) ctx
  end.

Definition cause_of {V} (e : terr V) : cause := match e with FromDecode c => c | FromVisitor _ _ c => c end.

Section SpecTrace.
  Context {TId : Type} (reg : TId -> resolution TId) (maxbits lenbits : N).
  Local Notation ENCS := (encs reg maxbits lenbits (fun t : TId => t) PI256 false).

  (** The unnamed or named composite holding [vs] as the first few of the fields [names]. *)
  Inductive first_fields {V} : list (option str) -> list V -> composite V -> Prop :=
  | FF_named : forall ns (vs : list V), ns <> [] -> (length vs <= length ns)%nat -> first_fields (map Some ns) vs (Named (combine ns vs))
  | FF_unnamed : forall names (vs : list V), names = [] \/ In None names -> (length vs <= length names)%nat -> first_fields names vs (Unnamed vs).
  (** How the path calls field number [i]. *)
  Inductive field_seg : list (option str) -> nat -> seg -> Prop :=
  | FG_named : forall ns i n, nth_error ns i = Some n -> field_seg (map Some ns) i (SField n)
  | FG_unnamed : forall names i, In None names -> (i < length names)%nat -> field_seg names i (SIndex i).

  (** [located c t rel v pre c' t']: decoding at [t] (below a [Compact] if [c]) has consumed [pre] and produced the partial value
      [v] when it arrived at an item of type [t'], reached from [t] along [rel].  Variant names do not occur in [rel]. *)
  Inductive located : bool -> TId -> list seg -> value TId -> bytes -> bool -> TId -> Prop :=
  | Lo_composite : forall c t fs rel cmp pre c' t', reg t = ResTy (TComposite fs) -> (c = true -> length fs = 1%nat) ->
      located_in c fs rel cmp pre c' t' -> located c t rel (Val (DComposite cmp) t) pre c' t'
  | Lo_tuple : forall c t ts rel cmp pre c' t', reg t = ResTy (TTuple ts) -> (c = true -> length ts = 1%nat) ->
      located_in c (map (fun t => (None, t)) ts) rel cmp pre c' t' -> located c t rel (Val (DComposite cmp) t) pre c' t'
  | Lo_sequence : forall t e n head rel cmp pre c' t', reg t = ResTy (TSequence e) -> n < 2 ^ lenbits -> compact_enc n head ->
      located_in false (map (fun t => (None, t)) (repeat e (N.to_nat n))) rel cmp pre c' t' ->
      located false t rel (Val (DComposite cmp) t) (head ++ pre) c' t'
  | Lo_array : forall t e n rel cmp pre c' t', reg t = ResTy (TArray e n) ->
      located_in false (map (fun t => (None, t)) (repeat e (N.to_nat n))) rel cmp pre c' t' ->
      located false t rel (Val (DComposite cmp) t) pre c' t'
  | Lo_variant : forall t l1 v l2 rel cmp pre c' t', reg t = ResTy (TVariant (l1 ++ v :: l2)) -> ~ In (vi_index v) (map vi_index l1) ->
      located_in false (vi_fields v) rel cmp pre c' t' -> located false t rel (Val (DVariant (vi_name v) cmp) t) (vi_index v :: pre) c' t'
  | Lo_compact : forall c t u rel v pre c' t', reg t = ResTy (TCompact u) -> located true u rel v pre c' t' -> located c t rel v pre c' t'
  (** The same for a list of fields: some fields are complete, the next one is where it happened. *)
  with located_in : bool -> list (field TId) -> list seg -> composite (value TId) -> bytes -> bool -> TId -> Prop :=
  | Lo_here : forall c fs1 name t' fs2 vs pre cmp s, ENCS c (map snd fs1) vs pre ->
      first_fields (map fst (fs1 ++ (name, t') :: fs2)) vs cmp -> field_seg (map fst (fs1 ++ (name, t') :: fs2)) (length fs1) s ->
      located_in c (fs1 ++ (name, t') :: fs2) [s] cmp pre c t'
  | Lo_inner : forall c fs1 name u fs2 vs pre cmp s x rel pre' c' t', ENCS c (map snd fs1) vs pre ->
      located c u rel x pre' c' t' ->
      first_fields (map fst (fs1 ++ (name, u) :: fs2)) (vs ++ [x]) cmp -> field_seg (map fst (fs1 ++ (name, u) :: fs2)) (length fs1) s ->
      located_in c (fs1 ++ (name, u) :: fs2) (s :: rel) cmp (pre ++ pre') c' t'.

  (** No enum variant has more than [max] fields. *)
  Definition variants_within (max : N) : Prop :=
    forall t vs v, reg t = ResTy (TVariant vs) -> In v vs -> N.of_nat (length (vi_fields v)) <= max.

  (** No node of the value has more than [max] children. *)
  Inductive within (max : N) : value TId -> Prop :=
  | Wi : forall d ctx, N.of_nat (length (children d)) <= max -> Forall (within max) (children d) -> within max (Val d ctx).
End SpecTrace.
