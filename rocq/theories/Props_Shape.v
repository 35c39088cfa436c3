(** * Props_Shape: C84, only the shape of a type matters, not its id nor the rest of the registry.

    Two registries (or one registry twice) and a relation between their type ids under which related ids are answered alike
    ([Spec_Shape.alike]): encoding, decoding and tracing at related ids do the same. *)
From Verif Require Import Base Value ValueFacts Registry Spec_Scale Scale Decode Trace Encode Spec_Shape ShapeFacts Demo Props_Decode.
Open Scope N_scope.

(** ** From correspondence to equality *)
Lemma corresponds_map {C D} (f : C -> D) (v : value C) : forall w, corresponds (fun a b => b = f a) v w -> w = map_ctx f v.
Proof.
  induction v as [d c IH] using value_ind'. intros w HC. inversion HC as [d0 e c0 c' E HD]; subst. rewrite map_ctx_unfold. f_equal.
  rewrite Forall_forall in IH.
  assert (list_case : forall l m, (forall v, In v l -> forall w, corresponds (fun a b => b = f a) v w -> w = map_ctx f v) ->
                        Forall2 (corresponds (fun a b => b = f a)) l m -> m = map (map_ctx f) l).
  { intros l m. revert m. induction l as [|x l IHl]; intros m HI HF; inversion HF; subst; cbn [map]; [reflexivity|]. f_equal.
    - apply HI; [left; reflexivity|assumption].
    - apply IHl; [intros v Hv; apply HI; right; exact Hv|assumption]. }
  assert (pair_case : forall (l : list (str * value C)) m, (forall v, In v (map snd l) -> forall w, corresponds (fun a b => b = f a) v w -> w = map_ctx f v) ->
                        Forall2 (fun x y => fst x = fst y /\ corresponds (fun a b => b = f a) (snd x) (snd y)) l m ->
                        m = map (fun kv => (fst kv, map_ctx f (snd kv))) l).
  { intros l m. revert m. induction l as [|x l IHl]; intros m HI HF; inversion HF as [|x0 [k y] l0 m0 [HK HY] HF']; subst; cbn [map]; [reflexivity|]. f_equal.
    - cbn [fst snd] in *. rewrite HK. f_equal. apply HI; [left; reflexivity|assumption].
    - apply IHl; [intros v Hv; apply HI; right; exact Hv|assumption]. }
  destruct HD as [c1 c2 HS|n c1 c2 HS|b|p]; cbn [vdef_map]; [| |reflexivity|reflexivity]; f_equal; cbn [children] in IH;
    destruct HS as [l m HF|l m HF]; cbn [composite_map values] in *; f_equal; auto.
Qed.
Lemma corresponds_eq {C} (v w : value C) : corresponds eq v w -> v = w.
Proof.
  intro HC. rewrite <- (map_ctx_id v). symmetry. apply corresponds_map.
  revert w HC. induction v as [d c IH] using value_ind'. intros w HC. inversion HC as [d0 e c0 c' E HD]; subst. rewrite Forall_forall in IH.
  constructor; [reflexivity|].
  destruct HD as [c1 c2 HS|n c1 c2 HS|b|p]; constructor; cbn [children] in IH; destruct HS as [l m HF|l m HF]; constructor; cbn [values] in IH; clear HC;
    induction HF as [|x y l m HP _ IHl]; constructor.
  - destruct HP as [HK HP]. split; [exact HK|]. apply IH; [left; reflexivity|exact HP].
  - apply IHl. intros v Hv. apply IH. right. exact Hv.
  - apply IH; [left; reflexivity|exact HP].
  - apply IHl. intros v Hv. apply IH. right. exact Hv.
  - destruct HP as [HK HP]. split; [exact HK|]. apply IH; [left; reflexivity|exact HP].
  - apply IHl. intros v Hv. apply IH. right. exact Hv.
  - apply IH; [left; reflexivity|exact HP].
  - apply IHl. intros v Hv. apply IH. right. exact Hv.
Qed.
Lemma composite_eq {C} (c d : composite (value C)) : same_composite (corresponds eq) c d -> c = d.
Proof.
  intros [l m HF|l m HF]; f_equal; induction HF as [|x y l m HP _ IH]; try reflexivity; f_equal; try exact IH.
  - destruct x, y, HP as [HK HP]. cbn [fst snd] in *. subst. f_equal. apply corresponds_eq, HP.
  - apply corresponds_eq, HP.
Qed.
Lemma result_eq {V E L} (P : V -> V -> Prop) (Q : E -> E -> Prop) (r s : result (V * L) E) :
  (forall v w, P v w -> v = w) -> (forall e f, Q e f -> e = f) -> same_result P Q r s -> r = s.
Proof. intros HP HQ [v w rest H|e f H]; [rewrite (HP _ _ H)|rewrite (HQ _ _ H)]; reflexivity. Qed.

(** ** C84 *)
(** Decoding into a [Value<TypeId>]: the same error, or the same data with related ids, and the same bytes left. *)
Theorem C84_decode {A B} (R : A -> B -> Prop) (reg1 : A -> resolution A) (reg2 : B -> resolution B) X : alike R reg1 reg2 -> forall fuel t u bs, R t u ->
  same_result (corresponds R) eq (decode_as_type reg1 X (fun t => t) fuel t bs) (decode_as_type reg2 X (fun u => u) fuel u bs).
Proof. intros H fuel t u bs HR. apply (decode_same R reg1 reg2 X H R); auto. Qed.
(** Decoding into a [Value<()>]: the same result. *)
Theorem C84_decode_plain {A B} (R : A -> B -> Prop) (reg1 : A -> resolution A) (reg2 : B -> resolution B) X : alike R reg1 reg2 -> forall fuel t u bs, R t u ->
  decode_as_type reg1 X (fun _ => tt) fuel t bs = decode_as_type reg2 X (fun _ => tt) fuel u bs.
Proof.
  intros H fuel t u bs HR. eapply result_eq; [apply corresponds_eq|intros e f E; exact E|].
  apply (decode_same R reg1 reg2 X H eq); [reflexivity|exact HR].
Qed.
(** Decoding a list of fields. *)
Theorem C84_decode_fields {A B} (R : A -> B -> Prop) (reg1 : A -> resolution A) (reg2 : B -> resolution B) X : alike R reg1 reg2 -> forall fuel fs gs bs, same_fields R fs gs ->
  same_result (same_composite (corresponds R)) eq (decode_as_fields reg1 X (fun t => t) fuel fs bs) (decode_as_fields reg2 X (fun u => u) fuel gs bs) /\
  decode_as_fields reg1 X (fun _ => tt) fuel fs bs = decode_as_fields reg2 X (fun _ => tt) fuel gs bs.
Proof.
  intros H fuel fs gs bs HF. split; [apply (decode_fields_same R reg1 reg2 X H R); auto|].
  eapply result_eq; [apply composite_eq|intros e f E; exact E|]. apply (decode_fields_same R reg1 reg2 X H eq); [reflexivity|exact HF].
Qed.
(** The tracing decoder: the same value, or the same cause at the same path with the same data decoded so far. *)
Theorem C84_trace {A B} (R : A -> B -> Prop) (reg1 : A -> resolution A) (reg2 : B -> resolution B) X : alike R reg1 reg2 -> forall fuel t u bs, R t u ->
  same_result (corresponds R) (fun e f => match e, f with
                                          | FromDecode c, FromDecode d => c = d
                                          | FromVisitor p v c, FromVisitor q w d => p = q /\ corresponds R v w /\ c = d
                                          | _, _ => False
                                          end) (trace_as_type reg1 X fuel t bs) (trace_as_type reg2 X fuel u bs).
Proof.
  intros H fuel t u bs HR. unfold trace_as_type. destruct (trace_same R reg1 reg2 X H fuel [] false t u bs HR) as [v w r HC|e f HE].
  - constructor. exact HC.
  - constructor. destruct HE; auto.
Qed.
(** Encoding a value: the same bytes, or the same error, and the same buffer left behind. *)
Theorem C84_encode {A B} (R : A -> B -> Prop) (reg1 : A -> resolution A) (reg2 : B -> resolution B) X {T} : alike R reg1 reg2 -> forall F (v : value T) t u out, R t u -> encode reg1 X F v t out = encode reg2 X F v u out.
Proof. intros H F v t u out HR. apply (encode_same R reg1 reg2 X H F v t u out HR). Qed.
Theorem C84_encode_fields {A B} (R : A -> B -> Prop) (reg1 : A -> resolution A) (reg2 : B -> resolution B) X {T} : alike R reg1 reg2 -> forall F (v : value T) (c : composite (value T)) fs gs out, same_fields R fs gs ->
  encode_as_fields reg1 X F v fs out = encode_as_fields reg2 X F v gs out /\
  encode_composite_as_fields reg1 X F c fs out = encode_composite_as_fields reg2 X F c gs out.
Proof. intros H F v c fs gs out HF. split; [apply (encode_as_fields_same R)|apply (encode_composite_as_fields_same R)]; assumption. Qed.

(** ** Renumbering: a registry whose ids were renamed by any function *)
Lemma rename_alike {A B} (f : A -> B) (reg1 : A -> resolution A) (reg2 : B -> resolution B) : (forall t, reg2 (f t) = rename_answer f (reg1 t)) -> alike (fun t u => u = f t) reg1 reg2.
Proof.
  intros H t u ->. rewrite H.
  assert (FS : forall fs, Forall2 (same_field (fun t u => u = f t)) fs (rename_fields f fs)).
  { induction fs as [|[n t'] fs IH]; constructor; [split; reflexivity|exact IH]. }
  destruct (reg1 t) as [| |d]; cbn [rename_answer]; constructor. destruct d as [fs|vs|t'|t' n|ts|p|t'|s o]; cbn [rename_type]; constructor; try reflexivity.
  - apply FS.
  - induction vs as [|v vs IH]; cbn [map]; constructor; [|exact IH]. split; [reflexivity|split; [reflexivity|apply FS]].
  - induction ts as [|t' ts IH]; cbn [map]; constructor; [reflexivity|exact IH].
Qed.
Theorem C84_rename {A B} (f : A -> B) (reg1 : A -> resolution A) (reg2 : B -> resolution B) X {T} : (forall t, reg2 (f t) = rename_answer f (reg1 t)) -> forall fuel F t bs (v : value T) out,
  decode_as_type reg2 X (fun u => u) fuel (f t) bs =
    match decode_as_type reg1 X (fun t => t) fuel t bs with Ok (w, rest) => Ok (map_ctx f w, rest) | Err e => Err e end /\
  decode_as_type reg2 X (fun _ => tt) fuel (f t) bs = decode_as_type reg1 X (fun _ => tt) fuel t bs /\
  encode reg2 X F v (f t) out = encode reg1 X F v t out.
Proof.
  intros H fuel F t bs v out. pose proof (rename_alike f reg1 reg2 H) as HA. split; [|split].
  - destruct (C84_decode _ reg1 reg2 X HA fuel t (f t) bs eq_refl) as [w w' rest HC|e e' <-]; [|reflexivity]. rewrite (corresponds_map f _ _ HC). reflexivity.
  - symmetry. apply (C84_decode_plain _ reg1 reg2 X HA fuel t (f t) bs eq_refl).
  - symmetry. apply (C84_encode _ reg1 reg2 X HA F v t (f t) out eq_refl).
Qed.

(** ** Adding or removing types that are not needed *)
Lemma needed_alike {A} (reg1 reg2 : A -> resolution A) t : (forall u, needed reg1 t u -> reg2 u = reg1 u) -> alike (fun u w => u = w /\ needed reg1 t u) reg1 reg2.
Proof.
  intros H u w [<- HN]. rewrite (H u HN).
  assert (FS : forall fs, (forall n w, In (n, w) fs -> needed reg1 t w) -> Forall2 (same_field (fun u w => u = w /\ needed reg1 t u)) fs fs).
  { induction fs as [|[n w] fs IH]; intro HI; constructor; [split; [reflexivity|split; [reflexivity|apply (HI n w); left; reflexivity]]|].
    apply IH. intros k x Hx. apply (HI k x). right. exact Hx. }
  destruct (reg1 u) as [| |d] eqn:E; constructor. destruct d as [fs|vs|t'|t' n|ts|p|t'|s o]; constructor.
  - apply FS. intros n w Hw. apply (Needed_part _ _ u); [exact HN|]. eapply P_field; eassumption.
  - assert (HV : forall v, In v vs -> forall n w, In (n, w) (vi_fields v) -> needed reg1 t w).
    { intros v Hv n w Hw. apply (Needed_part _ _ u); [exact HN|]. eapply P_variant; eassumption. }
    clear E. induction vs as [|v vs IH]; constructor.
    + split; [reflexivity|split; [reflexivity|]]. apply FS, HV. left. reflexivity.
    + apply IH. intros v' Hv'. apply HV. right. exact Hv'.
  - split; [reflexivity|]. apply (Needed_part _ _ u); [exact HN|]. eapply P_sequence; eassumption.
  - split; [reflexivity|]. apply (Needed_part _ _ u); [exact HN|]. eapply P_array; eassumption.
  - assert (HT : forall w, In w ts -> needed reg1 t w).
    { intros w Hw. apply (Needed_part _ _ u); [exact HN|]. eapply P_tuple; eassumption. }
    clear E. induction ts as [|w ts IH]; constructor; [split; [reflexivity|apply HT; left; reflexivity]|]. apply IH. intros x Hx. apply HT. right. exact Hx.
  - split; [reflexivity|]. apply (Needed_part _ _ u); [exact HN|]. eapply P_compact; eassumption.
Qed.
Lemma corresponds_weaken {C} (P : C -> C -> Prop) (v : value C) : (forall a b, P a b -> b = a) -> forall w, corresponds P v w -> w = v.
Proof.
  intro HP. induction v as [d c IH] using value_ind'. intros w HC. inversion HC as [d0 e c0 c' E HD]; subst. apply HP in E. subst c'. f_equal. rewrite Forall_forall in IH.
  destruct HD as [c1 c2 HS|n c1 c2 HS|b|p]; try reflexivity; f_equal; cbn [children] in IH; destruct HS as [l m HF|l m HF]; f_equal; cbn [values] in IH; clear HC;
    induction HF as [|x y l m HX _ IHl]; try reflexivity.
  1, 3: destruct x, y, HX as [HK HX]; cbn [fst snd] in *; subst; f_equal; [f_equal; apply IH; [left; reflexivity|exact HX]|apply IHl; intros v' Hv'; apply IH; right; exact Hv'].
  1, 2: f_equal; [apply IH; [left; reflexivity|exact HX]|apply IHl; intros v' Hv'; apply IH; right; exact Hv'].
Qed.
Theorem C84_only_needed {A} (reg1 reg2 : A -> resolution A) X {T} t : (forall u, needed reg1 t u -> reg2 u = reg1 u) -> forall fuel F bs (v : value T) out,
  decode_as_type reg2 X (fun u => u) fuel t bs = decode_as_type reg1 X (fun u => u) fuel t bs /\
  decode_as_type reg2 X (fun _ => tt) fuel t bs = decode_as_type reg1 X (fun _ => tt) fuel t bs /\
  trace_as_type reg2 X fuel t bs = trace_as_type reg1 X fuel t bs /\
  encode reg2 X F v t out = encode reg1 X F v t out.
Proof.
  intros H fuel F bs v out. pose proof (needed_alike reg1 reg2 t H) as HA. pose proof (conj eq_refl (Needed_itself reg1 t) : t = t /\ needed reg1 t t) as HT.
  repeat apply conj.
  - destruct (C84_decode _ reg1 reg2 X HA fuel t t bs HT) as [w w' rest HC|e e' <-]; [|reflexivity].
    rewrite (corresponds_weaken _ w (fun a b h => eq_sym (proj1 h)) _ HC). reflexivity.
  - symmetry. apply (C84_decode_plain _ reg1 reg2 X HA fuel t t bs HT).
  - destruct (C84_trace _ reg1 reg2 X HA fuel t t bs HT) as [w w' rest HC|e e' HE].
    + rewrite (corresponds_weaken _ w (fun a b h => eq_sym (proj1 h)) _ HC). reflexivity.
    + destruct e as [c|p w c], e' as [d|q w' d]; try contradiction; [rewrite HE; reflexivity|]. destruct HE as (<- & HC & <-).
      rewrite (corresponds_weaken _ w (fun a b h => eq_sym (proj1 h)) _ HC). reflexivity.
  - symmetry. apply (C84_encode _ reg1 reg2 X HA F v t t out HT).
Qed.

Print Assumptions C84_decode. Print Assumptions C84_decode_plain. Print Assumptions C84_decode_fields. Print Assumptions C84_trace.
Print Assumptions C84_encode. Print Assumptions C84_encode_fields. Print Assumptions C84_rename. Print Assumptions C84_only_needed.

(** ** Examples *)

(** struct Tree { kids: Vec<Tree> }, and the same with the recursion unrolled once: ids 0, 2 are trees and 1, 3 lists of trees. *)
Definition tree2 (t : nat) : resolution nat :=
  match t with
  | 0%nat => ResTy (TComposite [(nm "kids", 1%nat)]) | 1%nat => ResTy (TSequence 2%nat)
  | 2%nat => ResTy (TComposite [(nm "kids", 3%nat)]) | 3%nat => ResTy (TSequence 0%nat)
  | _ => ResNotFound
  end.
Definition same_tree (t u : nat) : Prop := (t = 0%nat /\ (u = 0%nat \/ u = 2%nat)) \/ (t = 1%nat /\ (u = 1%nat \/ u = 3%nat)).
Example C84_trees : alike same_tree tree tree2.
Proof.
  unfold same_tree. intros t u [(-> & [-> | ->])|(-> & [-> | ->])]; cbn [tree tree2]; constructor; constructor; try (constructor; [|constructor]; split; [reflexivity|]); cbn [snd]; auto.
Qed.
Definition three : value unit :=
  let leaf := Val (DComposite (Named [(s2l "kids", Val (DComposite (Unnamed [])) tt)])) tt in
  Val (DComposite (Named [(s2l "kids", Val (DComposite (Unnamed [leaf; leaf])) tt)])) tt.
Example C84_trees_decode : decode_as_type tree2 xdemo (fun _ => tt) 10 0%nat [8; 0; 0; 7] = Ok (three, [7]) /\
                           decode_as_type tree xdemo (fun _ => tt) 10 0%nat [8; 0; 0; 7] = Ok (three, [7]).
Proof. split; [rewrite <- (C84_decode_plain same_tree tree tree2 xdemo C84_trees 10 0%nat 0%nat) by (left; auto)|]; vm_compute; reflexivity. Qed.
Example C84_trees_encode : encode tree2 xdemo 10 three 2%nat [1] = (SOk, [1; 8; 0; 0]).
Proof. rewrite <- (C84_encode same_tree tree tree2 xdemo C84_trees 10 three 0%nat 2%nat [1]) by (left; auto). vm_compute. reflexivity. Qed.

(** The demo registry with every id moved up by a hundred. *)
Definition moved (u : nat) : resolution nat := if (u <? 100)%nat then ResNotFound else rename_answer (fun t => 100 + t)%nat (demo (u - 100)).
Example C84_moved : forall t, moved (100 + t) = rename_answer (fun t => 100 + t)%nat (demo t).
Proof.
  intro t. unfold moved. replace (100 + t <? 100)%nat with false by (symmetry; apply Nat.ltb_ge; lia). replace (100 + t - 100)%nat with t by lia. reflexivity.
Qed.
Example C84_moved_decode : decode_as_type moved xdemo (fun u => u) 9 104%nat [9; 4; 7] =
  Ok (Val (DComposite (Named [(s2l "a", Val (DPrim (PU128 9)) 100%nat); (s2l "b", Val (DComposite (Unnamed [Val (DPrim (PU128 7)) 100%nat])) 105%nat)])) 104%nat, []).
Proof.
  pose proof (C84_rename (T := unit) (fun t => 100 + t)%nat demo moved xdemo C84_moved 9 9 4%nat [9; 4; 7] three []) as (E & _ & _).
  change (100 + 4)%nat with 104%nat in E. rewrite E. vm_compute. reflexivity.
Qed.

(** A registry that knows only Vec<u8> and u8. *)
Definition only_bytes (t : nat) : resolution nat := match t with 0%nat => ResTy (TPrim (PtU W8)) | 5%nat => ResTy (TSequence 0%nat) | _ => ResErr end.
Example C84_only_bytes : (forall u, needed demo 5%nat u -> only_bytes u = demo u) /\
  decode_as_type only_bytes xdemo (fun u => u) 9 5%nat [4; 7] = Ok (Val (DComposite (Unnamed [Val (DPrim (PU128 7)) 0%nat])) 5%nat, []).
Proof.
  assert (H : forall u, needed demo 5%nat u -> only_bytes u = demo u).
  { assert (N5 : forall u, needed demo 5%nat u -> u = 5%nat \/ u = 0%nat).
    { induction 1 as [|u w _ IH P]; [left; reflexivity|]. destruct IH as [-> | ->]; inversion P; cbn [demo] in *; try discriminate; right; congruence. }
    intros u HN. destruct (N5 u HN) as [-> | ->]; reflexivity. }
  split; [exact H|]. pose proof (C84_only_needed demo only_bytes xdemo 5%nat H 9 9 [4; 7] three []) as (E & _). rewrite E. vm_compute. reflexivity.
Qed.

(** That two types have the same encodings is not enough: u8 and struct S(u8) are written alike and decoded to different values. *)
Definition wrapped_byte (t : nat) : resolution nat := match t with 0%nat => ResTy (TPrim (PtU W8)) | _ => ResTy (TComposite [(None, 0%nat)]) end.
Theorem C84_same_bytes_refuted : ~ (forall (reg : nat -> resolution nat) X t u,
  (forall bs r, (exists fuel v, decode_as_type reg X (fun _ => tt) fuel t bs = Ok (v, r)) <-> (exists fuel v, decode_as_type reg X (fun _ => tt) fuel u bs = Ok (v, r))) ->
  forall fuel bs v w r, decode_as_type reg X (fun _ => tt) fuel t bs = Ok (v, r) -> decode_as_type reg X (fun _ => tt) fuel u bs = Ok (w, r) -> v = w).
Proof.
  intro H. specialize (H wrapped_byte xdemo 0%nat 1%nat). 
  assert (E : forall bs r, (exists fuel v, decode_as_type wrapped_byte xdemo (fun _ => tt) fuel 0%nat bs = Ok (v, r)) <->
                           (exists fuel v, decode_as_type wrapped_byte xdemo (fun _ => tt) fuel 1%nat bs = Ok (v, r))).
  { intros bs r. unfold decode_as_type. split; intros (fuel & v & D).
    - destruct fuel as [|f]; [discriminate|]. exists (S (S f)), (Val (DComposite (Unnamed [v])) tt). remember (S f) as g eqn:Eg. cbn [decode wrapped_byte andb negb length Nat.eqb].
      cbn [visit_composite length Nat.ltb Nat.leb has_unnamed existsb is_some fst negb orb andb map snd decode_items bind]. unfold visit_composite.
      cbn [length Nat.ltb Nat.leb has_unnamed existsb is_some fst negb orb andb map snd decode_items bind]. rewrite D. reflexivity.
    - destruct fuel as [|f]; [discriminate|]. cbn [decode wrapped_byte andb negb length Nat.eqb] in D. unfold visit_composite in D.
      cbn [length Nat.ltb Nat.leb has_unnamed existsb is_some fst negb orb andb map snd decode_items bind] in D.
      destruct (decode wrapped_byte xdemo (fun _ => tt) f false 0%nat bs) as [[x r']|e] eqn:E; cbn [bind fst snd] in D; [|discriminate]. injection D as _ <-. exists f, x. exact E. }
  specialize (H E 5%nat [7] (vu128 7) (Val (DComposite (Unnamed [vu128 7])) tt) []). cbv in H. specialize (H eq_refl eq_refl). discriminate.
Qed.
Print Assumptions C84_same_bytes_refuted.
