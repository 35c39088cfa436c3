(** * EditTextFacts: edits and the forms a value takes on its way through text (C107). *)
From Verif Require Import Base Value ValueFacts Chars Spec_Grammar Spec_Fmt Registry Spec_Scale Spec_Encode Spec_Edit Spec_Splice.

Lemma comp_map_vals {A B} (f : A -> B) c : values (composite_map f c) = map f (values c).
Proof. destruct c; cbn [composite_map values]; [rewrite !map_map; reflexivity|reflexivity]. Qed.
Lemma replaced_map {A B} (f : value A -> value B) c c' i x x' : replaced c c' i x x' -> replaced (composite_map f c) (composite_map f c') i (f x) (f x').
Proof.
  intros [(l1 & k & l2 & L & -> & ->)|(l1 & l2 & L & -> & ->)]; cbn [composite_map]; rewrite !map_app; cbn [map fst snd].
  - left. eexists _, _, _. split; [|split; reflexivity]. rewrite map_length. exact L.
  - right. eexists _, _. split; [|split; reflexivity]. rewrite map_length. exact L.
Qed.

Lemma uf_composite {T} (c : composite (value T)) x : unsigned_form (Val (DComposite c) x) = Val (DComposite (composite_map unsigned_form c)) tt.
Proof. destruct c; reflexivity. Qed.
Lemma uf_variant {T} n (c : composite (value T)) x : unsigned_form (Val (DVariant n c) x) = Val (DVariant n (composite_map unsigned_form c)) tt.
Proof. destruct c; reflexivity. Qed.
Lemma comp_map_ext_in {A B} (f g : A -> B) c : Forall (fun x => f x = g x) (values c) -> composite_map f c = composite_map g c.
Proof.
  destruct c as [l|l]; cbn [values composite_map]; intro H; f_equal; apply map_ext_Forall; [|exact H].
  induction l as [|[k x] l IH]; constructor; inversion H; subst; cbn [fst snd] in *; [congruence|auto].
Qed.
Lemma comp_map_map {A B D} (f : A -> B) (g : B -> D) c : composite_map g (composite_map f c) = composite_map (fun x => g (f x)) c.
Proof. destruct c; cbn [composite_map]; rewrite map_map; reflexivity. Qed.

Lemma unsign_idem p : unsign_prim (unsign_prim p) = unsign_prim p.
Proof. destruct p as [| | | |z| |]; try reflexivity. cbn [unsign_prim]. destruct (0 <=? z)%Z eqn:E; [reflexivity|]. cbn [unsign_prim]. now rewrite E. Qed.
Lemma unsigned_idem {T} (v : value T) : unsigned_form (unsigned_form v) = unsigned_form v.
Proof.
  induction v as [d x IH] using value_ind'. destruct d as [c|n c|b|p].
  - rewrite !uf_composite, comp_map_map. do 2 f_equal. apply comp_map_ext_in, IH.
  - rewrite !uf_variant, comp_map_map. do 2 f_equal. apply comp_map_ext_in, IH.
  - reflexivity.
  - cbn [unsigned_form]. now rewrite unsign_idem.
Qed.
Lemma unsigned_ctx {T U} (f : T -> U) (v : value T) : unsigned_form (map_ctx f v) = unsigned_form v.
Proof.
  induction v as [d x IH] using value_ind'. rewrite map_ctx_unfold. destruct d as [c|n c|b|p]; cbn [vdef_map].
  - rewrite !uf_composite, comp_map_map. do 2 f_equal. apply comp_map_ext_in, IH.
  - rewrite !uf_variant, comp_map_map. do 2 f_equal. apply comp_map_ext_in, IH.
  - reflexivity.
  - reflexivity.
Qed.

Lemma swap_unsigned {T} p (u w v v' : value T) : swap p u w v v' -> swap p (unsigned_form u) (unsigned_form w) (unsigned_form v) (unsigned_form v').
Proof.
  induction 1 as [u w|i p u w c c' x x' y R S IH|i p u w n c c' x x' y R S IH]; [constructor| |].
  - rewrite !uf_composite. eapply Swap_composite; [eapply replaced_map, R|exact IH].
  - rewrite !uf_variant. eapply Swap_variant; [eapply replaced_map, R|exact IH].
Qed.
(** What is read from a text of Unicode scalar values is a value Rust can hold. *)
Local Notation wf := (all_nodes (fun d => match d with DPrim p => prim_wf p = true | _ => True end)).
Lemma wf_ctx {T U} (f : T -> U) (v : value T) : wf v -> wf (map_ctx f v).
Proof.
  induction v as [d x IH] using value_ind'. intro H. inversion H as [? ? Hd Hc]; subst. rewrite map_ctx_unfold.
  assert (Z : Forall wf (map (map_ctx f) (children d))).
  { rewrite Forall_forall in *. intros z I. apply in_map_iff in I as (z' & <- & I). auto. }
  constructor; destruct d as [c|n c|b|p]; cbn [vdef_map children] in *; rewrite ?comp_map_vals; try exact I; try exact Z; try exact Hd; constructor.
Qed.
Lemma body_scalar s t : g_body s t -> forallb is_scalar t = true -> forallb is_scalar s = true.
Proof.
  induction 1 as [|c s t N1 N2 H IH|c e s t I H IH]; cbn [forallb]; intro F; [reflexivity|apply andb_prop in F as [F1 F2]; now rewrite F1, IH|].
  apply andb_prop in F as [_ F]. apply andb_prop in F as [_ F]. rewrite (IH F), andb_true_r.
  unfold escapes in I. cbn [In] in I. repeat (destruct I as [I|I]; [injection I as <- _; reflexivity|]). destruct I.
Qed.
Lemma read_wf U v t : grammar U v t -> forallb is_scalar t = true -> wf v.
Proof.
  assert (A : forall a b, forallb is_scalar (a ++ b) = true -> forallb is_scalar a = true /\ forallb is_scalar b = true) by (intros a b H; rewrite forallb_app in H; apply andb_prop, H).
  apply (g_val_mut U no_custom (fun v t => forallb is_scalar t = true -> wf v) (fun c t => forallb is_scalar t = true -> Forall wf (values c))
    (fun l t => forallb is_scalar t = true -> Forall wf l) (fun l t => forallb is_scalar t = true -> Forall wf (map snd l))).
  - intros. constructor; [reflexivity|constructor].
  - intros. constructor; [reflexivity|constructor].
  - intros c t' H F. constructor; [|constructor]. cbn [prim_wf]. inversion H as [? N|? e I]; subst; cbn [forallb] in F.
    + apply andb_prop in F as [_ F]. apply andb_prop in F as [F _]. exact F.
    + unfold escapes in I. cbn [In] in I. repeat (destruct I as [I|I]; [injection I as <- _; reflexivity|]). destruct I.
  - intros s t' (b & H & ->) F. constructor; [|constructor]. cbn [prim_wf]. apply A in F as [_ F]. apply A in F as [F _]. eapply body_scalar; eassumption.
  - intros p t' H F. constructor; [|constructor]. inversion H; subst; cbn [prim_wf].
    + now apply N.ltb_lt.
    + now apply N.ltb_lt.
    + apply andb_true_intro. split; [apply Z.leb_le|apply Z.ltb_lt]; lia.
  - intros b F. constructor; [exact I|constructor].
  - intros c t' H IH F. constructor; [exact I|]. auto.
  - intros n nt w c t' H Hw Hc IH F. constructor; [exact I|]. apply A in F as [_ F]. apply A in F as [_ F]. auto.
  - intros ? ? [].
  - intros. constructor.
  - intros. constructor.
  - intros w1 l t' w2 H1 HF IH H2 F. cbn [values]. apply A in F as [_ F]. apply A in F as [_ F]. apply A in F as [F _]. auto.
  - intros w1 l t' w2 H1 HF IH H2 F. cbn [values]. apply A in F as [_ F]. apply A in F as [_ F]. apply A in F as [F _]. auto.
  - intros v0 t' H IH F. constructor; [auto|constructor].
  - intros v0 t' w1 w2 l t2 H IH H1 H2 HI IHI F. apply A in F as [F F2]. do 3 apply A in F2 as [_ F2]. constructor; auto.
  - intros n nt w1 w2 v0 t' HN H1 H2 H IH F. do 4 apply A in F as [_ F]. cbn [map snd]. constructor; [auto|constructor].
  - intros n nt w1 w2 v0 t' w3 w4 l t2 HN H1 H2 H IH H3 H4 HI IHI F. apply A in F as [F F2]. do 4 apply A in F as [_ F]. do 3 apply A in F2 as [_ F2]. cbn [map snd]. constructor; auto.
Qed.
