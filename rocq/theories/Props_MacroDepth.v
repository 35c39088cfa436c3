(** * Props_MacroDepth: C82 ([value!] and rustc's recursion limit) *)
From Verif Require Import Base Value Macro Spec_Macro MacroFacts MacroExact MacroDepth Spec_MacroDepth MacroDepthFacts MacroDemo Props_Macro.
From Coq Require Import Lia.

(** [compiles_within P from key_name ud vd limit ts v]: [value!(ts)] compiles under [#![recursion_limit = "limit"]] and is [v]. *)
Theorem C82_exact : forall (E : Type) (P : list tok -> eparse E) (from : E -> value unit) (key_name : E -> str) (ud : E -> nat) (vd : nat),
  rustc_like P -> forall limit ts v,
  compiles_within P from key_name ud vd limit ts v <-> exists n, needs P from key_name ud (1 + vd) ts v n /\ (n <= limit)%nat.
Proof.
  intros E P from key_name ud vd HP limit ts v. split.
  - intros (f & n & H & L). exists (1 + n)%nat. split; [eapply expand_d_sound; eassumption|exact L].
  - intros (n & H & L). apply needs_expand in H as (k & f & -> & H); [|exact HP]. exists f, k. split; [apply H; lia|exact L].
Qed.
Print Assumptions C82_exact.

(** For every input of the grammar there is exactly one such number, the least limit that suffices; and only for those. *)
Theorem C82_least_limit : forall (E : Type) (P : list tok -> eparse E) (from : E -> value unit) (key_name : E -> str) (ud : E -> nat) (vd : nat),
  rustc_like P -> forall ts v,
  (denotes P from key_name ts v <-> exists n, needs P from key_name ud (1 + vd) ts v n) /\
  (forall v' n n', needs P from key_name ud (1 + vd) ts v n -> needs P from key_name ud (1 + vd) ts v' n' -> v = v' /\ n = n').
Proof.
  intros E P from key_name ud vd HP ts v. split; [split|].
  - intros [|ts' v' Hf|ts' e Hf Hn He].
    + eexists. constructor.
    + destruct (proj1 (needs_total P from key_name ud vd HP) _ _ Hf) as [n H]. eexists. apply N_form, H.
    + eexists. apply N_expr; assumption.
  - intros (n & [|ts' v' n' Hf|ts' e Hf Hn He]).
    + constructor.
    + apply D_form. eapply (proj1 (needs_denotes P from key_name ud vd)). exact Hf.
    + apply D_expr; assumption.
  - intros v' n n'. apply needs_unique, HP.
Qed.
Print Assumptions C82_least_limit.

(** Whatever compiles under some limit is what [value!] means without one (C47). *)
Theorem C82_same_value : forall (E : Type) (P : list tok -> eparse E) (from : E -> value unit) (key_name : E -> str) (ud : E -> nat) (vd : nat),
  rustc_like P -> forall ts v, (exists limit, compiles_within P from key_name ud vd limit ts v) <-> value_macro P from key_name ts v.
Proof.
  intros E P from key_name ud vd HP ts v. rewrite C47_value_macro_exact by exact HP. rewrite (proj1 (C82_least_limit E P from key_name ud vd HP ts v)). split.
  - intros [limit H]. apply C82_exact in H as (n & H & _); [|exact HP]. eauto.
  - intros [n H]. exists n. apply C82_exact; [exact HP|]. eauto.
Qed.
Print Assumptions C82_same_value.

(** ** How much is needed *)
(** Tokens, those inside groups included. *)
Fixpoint tokens (t : tok) : nat := match t with TGroup _ l => S (fold_right (fun t n => (tokens t + n)%nat) O l) | _ => 1%nat end.
Definition all_tokens (l : list tok) : nat := fold_right (fun t n => (tokens t + n)%nat) O l.

(** At most a multiple of the number of tokens, when the user's expressions contain no macros. *)
Theorem C82_enough : forall (E : Type) (P : list tok -> eparse E) (from : E -> value unit) (key_name : E -> str) (vd : nat),
  rustc_like P -> forall ts v n,
  needs P from key_name (fun _ => O) (1 + vd) ts v n -> (n <= 2 + (5 + vd) * all_tokens ts)%nat.
Proof.
  intros E P from key_name vd HP ts v n H.
  assert (AT : forall a b, all_tokens (a ++ b) = (all_tokens a + all_tokens b)%nat).
  { intros a b. unfold all_tokens. induction a as [|t a IH]; cbn [app fold_right]; [reflexivity|]. rewrite IH. lia. }
  assert (LT : forall a, (length a <= all_tokens a)%nat).
  { unfold all_tokens. induction a as [|t a IH]; cbn [length fold_right]; [lia|]. destruct t; cbn [tokens]; lia. }
  assert (PO : forall ts e, P ts = POk e [] -> (1 <= all_tokens ts)%nat).
  { intros l e He. destruct l as [|t l]; [exfalso; eapply P_nil; eassumption|]. pose proof (LT (t :: l)) as HL. cbn [length] in HL. lia. }
  assert (G : forall d l, all_tokens [TGroup d l] = S (all_tokens l)) by (intros; unfold all_tokens; cbn [fold_right tokens]; lia).
  assert (G2 : forall i d l, all_tokens [TIdent i; TGroup d l] = S (S (all_tokens l))) by (intros; unfold all_tokens; cbn [fold_right tokens]; lia).
  assert (C : forall t l, t = TComma \/ t = TColon -> all_tokens (t :: l) = S (all_tokens l)) by (intros t l [->| ->]; reflexivity).
  assert (C0 : all_tokens [] = O) by reflexivity.
  set (K := (5 + vd)%nat).
  assert (K1 : forall ks, (length ks <= K * all_tokens ks)%nat) by (intro ks; pose proof (LT ks); unfold K; nia).
  assert (K2 : forall ts e, P ts = POk e [] -> (5 <= K * all_tokens ts)%nat) by (intros l e He; apply PO in He; unfold K; nia).
  assert (B :
    (forall ts v n, form_needs P from key_name (fun _ => O) (1 + vd) ts v n -> 1 + n <= K * all_tokens ts)%nat /\
    (forall ts v n, item_needs P from key_name (fun _ => O) (1 + vd) ts v n -> 1 + n <= K * all_tokens ts)%nat /\
    (forall l vs s d, items_need P from key_name (fun _ => O) (1 + vd) l vs s d -> s + d <= 2 + K * all_tokens l)%nat /\
    (forall l vs s d, entries_need P from key_name (fun _ => O) (1 + vd) l vs s d -> s + d <= 2 + K * all_tokens l)%nat).
  { apply depth_ind4; intros; rewrite ?AT, ?C, ?G, ?G2, ?C0 in * by auto;
      try match goal with Hk : key P ?ks _ |- _ => pose proof (K1 ks) end;
      try match goal with He : P _ = POk _ [] |- _ => apply K2 in He end;
      rewrite ?Nat.mul_add_distr_l, ?Nat.mul_succ_r, ?Nat.mul_0_r in *; try (unfold K in *; lia). rewrite AT, C by auto.
    rewrite ?Nat.mul_add_distr_l, ?Nat.mul_succ_r in *. unfold K in *. lia. }
  destruct H as [|ts' v' n' Hf|ts' e Hf Hn He].
  - lia.
  - apply (proj1 B) in Hf. unfold K in Hf. lia.
  - lia.
Qed.
Print Assumptions C82_enough.

(** At least two levels per unnamed and three per named field. *)
Theorem C82_at_least : forall (E : Type) (P : list tok -> eparse E) (from : E -> value unit) (key_name : E -> str) (ud : E -> nat) (vd : nat),
  rustc_like P -> forall ts v n, is_form ts -> needs P from key_name ud (1 + vd) ts v n ->
  match v with
  | Val (DComposite (Unnamed l)) _ | Val (DVariant _ (Unnamed l)) _ => (2 * length l <= n)%nat
  | Val (DComposite (Named l)) _ | Val (DVariant _ (Named l)) _ => (3 * length l <= n)%nat
  | _ => True
  end.
Proof.
  intros E P from key_name ud vd HP ts v n F H.
  assert (I : forall l vs s d, items_need P from key_name ud (1 + vd) l vs s d -> (2 * length vs <= s + 1)%nat).
  { intros l vs s d HI. induction HI; cbn [length]; lia. }
  assert (J : forall l vs s d, entries_need P from key_name ud (1 + vd) l vs s d -> (3 * length vs <= s)%nat).
  { intros l vs s d HI. induction HI as [|ks e ts0 v0 n0 HK HI|ks e ts0 v0 n0 rest kvs s d HK HI HR IH]; cbn [length]; [lia| |];
      (assert (0 < length ks)%nat; [|lia]); destruct HK as [k e Hk|ks e He _ _]; cbn [length]; try lia; (destruct ks; [exfalso; eapply P_nil; eassumption|cbn [length]; lia]). }
  destruct H as [|ts' v' n' Hf|ts' e Hf Hn He].
  - cbn. lia.
  - destruct Hf as [| |l vs s d NE HI|l vs s d NE HI|i l vs s d HI|i l vs s d HI]; try (apply I in HI; cbn [unnamed_composite unnamed_variant]; lia);
      try (apply J in HI; cbn [named_composite named_variant]; lia); cbn [length unnamed_composite named_composite]; lia.
  - contradiction.
Qed.
Print Assumptions C82_at_least.

(** ** Exact numbers *)
(** [k] expressions with commas between them; [k] entries whose keys are one token and whose values are expressions. *)
Inductive exprs {E} (P : list tok -> eparse E) : list tok -> nat -> Prop :=
| X_one ts e : ~ starts_with_form ts -> P ts = POk e [] -> exprs P ts 1
| X_more ts e rest k : ~ starts_with_form ts -> P ts = POk e [] -> exprs P rest k -> exprs P (ts ++ TComma :: rest) (S k).
Inductive fields {E} (P : list tok -> eparse E) : list tok -> nat -> Prop :=
| Y_one t ke ts e : key P [t] ke -> ~ starts_with_form ts -> P ts = POk e [] -> fields P (t :: TColon :: ts) 1
| Y_more t ke ts e rest k : key P [t] ke -> ~ starts_with_form ts -> P ts = POk e [] -> fields P rest k -> fields P (t :: TColon :: ts ++ TComma :: rest) (S k).

Theorem C82_flat : forall (E : Type) (P : list tok -> eparse E) (from : E -> value unit) (key_name : E -> str) (vd : nat),
  rustc_like P -> forall limit l k,
  (exprs P l k -> (exists v, compiles_within P from key_name (fun _ => O) vd limit [TGroup Paren l] v) <-> (2 * k + 3 + vd <= limit)%nat) /\
  (fields P l k -> (exists v, compiles_within P from key_name (fun _ => O) vd limit [TGroup Brace l] v) <-> (3 * k + 4 + vd <= limit)%nat).
Proof.
  intros E P from key_name vd HP limit l k.
  assert (U : forall ts v n, needs P from key_name (fun _ => O) (1 + vd) ts v n ->
    (exists v, compiles_within P from key_name (fun _ => O) vd limit ts v) <-> (n <= limit)%nat).
  { intros ts v n H. split.
    - intros [v' C]. apply C82_exact in C as (n' & H' & L); [|exact HP]. destruct (needs_unique P from key_name (fun _ => O) vd HP ts v v' n n' H H') as [_ ->]. exact L.
    - intro L. exists v. apply C82_exact; [exact HP|]. eauto. }
  assert (NE : forall ts e, P ts = POk e [] -> ts <> []) by (intros ts e He ->; eapply P_nil; eassumption).
  split; intro H.
  - assert (N : exists vs, items_need P from key_name (fun _ => O) (1 + vd) l vs (2 * k - 1) 1 /\ (1 <= k)%nat /\ l <> []).
    { induction H as [ts e Hs He|ts e rest k Hs He _ (vs & IH & L & _)].
      - exists [from e]. split; [exact (IsN_last_expr P from key_name (fun _ => O) (1 + vd) ts e Hs He)|]. split; [lia|eauto].
      - exists (from e :: vs). split; [|split; [lia|intro Q; destruct (app_eq_nil _ _ Q); discriminate]].
        replace (2 * S k - 1)%nat with (2 + (2 * k - 1))%nat by lia.
        exact (IsN_cons P from key_name (fun _ => O) (1 + vd) ts (from e) 1 rest vs _ 1 (IN_expr P from key_name (fun _ => O) (1 + vd) ts e Hs He) IH). }
    destruct N as (vs & N & L & NN). rewrite (U _ _ _ (N_form _ _ _ _ _ _ _ _ (FN_tuple _ _ _ _ _ _ _ _ _ NN N))). lia.
  - assert (N : exists vs, entries_need P from key_name (fun _ => O) (1 + vd) l vs (3 * k + if l then 1 else 0) 1 /\ (1 <= k)%nat /\ l <> []).
    { induction H as [t ke ts e Hk Hs He|t ke ts e rest k Hk Hs He HR (vs & IH & L & NN)].
      - exists [(key_name ke, from e)]. split; [|split; [lia|discriminate]].
        exact (EsN_last P from key_name (fun _ => O) (1 + vd) [t] ke ts (from e) 1 Hk (IN_expr P from key_name (fun _ => O) (1 + vd) ts e Hs He)).
      - exists ((key_name ke, from e) :: vs). split; [|split; [lia|discriminate]].
        replace (3 * S k + 0)%nat with (length [t] + 2 + (3 * k + 0))%nat by (cbn [length]; lia). destruct rest as [|r0 rest]; [congruence|].
        exact (EsN_cons P from key_name (fun _ => O) (1 + vd) [t] ke ts (from e) 1 (r0 :: rest) vs _ 1 Hk (IN_expr P from key_name (fun _ => O) (1 + vd) ts e Hs He) IH). }
    destruct N as (vs & N & L & NN). rewrite (U _ _ _ (N_form _ _ _ _ _ _ _ _ (FN_struct _ _ _ _ _ _ _ _ _ NN N))). destruct l; [congruence|]. lia.
Qed.
Print Assumptions C82_flat.

(** With rustc's default limit of 128 and a [vec!] of one level: 62 expressions in a tuple and 41 fields in a struct at most. *)
Theorem C82_default_limit : forall (E : Type) (P : list tok -> eparse E) (from : E -> value unit) (key_name : E -> str), rustc_like P -> forall l k,
  (exprs P l k -> (exists v, compiles_within P from key_name (fun _ => O) 1 128 [TGroup Paren l] v) <-> (k <= 62)%nat) /\
  (fields P l k -> (exists v, compiles_within P from key_name (fun _ => O) 1 128 [TGroup Brace l] v) <-> (k <= 41)%nat).
Proof.
  intros E P from key_name HP l k. destruct (C82_flat E P from key_name 1 HP 128 l k) as [A B]. split; intro H.
  - rewrite (A H). lia.
  - rewrite (B H). lia.
Qed.
Print Assumptions C82_default_limit.

(** Levels add up along the nesting: one more pair of parentheses takes [5 + vd] more, so that at most 21 fit into 128. *)
Fixpoint nested (k : nat) : list tok := match k with O => [TGroup Paren []] | S k' => [TGroup Paren (nested k')] end.
Theorem C82_nested : forall (E : Type) (P : list tok -> eparse E) (from : E -> value unit) (key_name : E -> str) (ud : E -> nat) (vd : nat), rustc_like P -> forall limit k,
  (exists v, compiles_within P from key_name ud vd limit (nested k) v) <-> (2 + (5 + vd) * k <= limit)%nat.
Proof.
  intros E P from key_name ud vd HP limit k.
  assert (N : exists v, form_needs P from key_name ud (1 + vd) (nested k) v (1 + (5 + vd) * k)).
  { induction k as [|k [v IH]].
    - exists (unnamed_composite []). rewrite Nat.mul_0_r. exact (FN_unit P from key_name ud (1 + vd)).
    - exists (unnamed_composite [v]). replace (1 + (5 + vd) * S k)%nat with (1 + 2 + (1 + vd) + (1 + (1 + (5 + vd) * k)))%nat by lia.
      exact (FN_tuple P from key_name ud (1 + vd) (nested k) [v] 2 _ ltac:(destruct k; discriminate) (IsN_last_form P from key_name ud (1 + vd) _ _ _ IH)). }
  destruct N as [v N]. apply N_form in N. split.
  - intros [v' C]. apply C82_exact in C as (n' & H' & L); [|exact HP]. destruct (needs_unique P from key_name ud vd HP _ _ _ _ _ N H') as [_ <-]. lia.
  - intro L. exists v. apply C82_exact; [exact HP|]. eexists. split; [exact N|]. lia.
Qed.
Print Assumptions C82_nested.

(** No limit is enough for everything the grammar allows. *)
Theorem C82_any_size_refuted : forall (E : Type) (P : list tok -> eparse E) (from : E -> value unit) (key_name : E -> str) (ud : E -> nat) (vd : nat), rustc_like P ->
  forall limit, exists ts v, denotes P from key_name ts v /\ forall w, ~ compiles_within P from key_name ud vd limit ts w.
Proof.
  intros E P from key_name ud vd HP limit. exists (nested limit).
  assert (D : exists v, form P from key_name (nested limit) v).
  { induction limit as [|k [v IH]]; [eexists; apply F_tuple; constructor|]. eexists. apply F_tuple, Is_last, I_form, IH. }
  destruct D as [v D]. exists v. split; [apply D_form, D|]. intros w C.
  assert (X : exists v, compiles_within P from key_name ud vd limit (nested limit) v) by eauto.
  apply C82_nested in X; [|exact HP]. lia.
Qed.
Print Assumptions C82_any_size_refuted.

(** ** Examples, with the parser of MacroDemo *)
Fixpoint numbers (k : nat) : list tok := match k with O => [lit 7] | S k' => lit 7 :: TComma :: numbers k' end.
Fixpoint members (k : nat) : list tok :=
  match k with O => [TIdent (s2l "a"); TColon; lit 7] | S k' => TIdent (s2l "a") :: TColon :: lit 7 :: TComma :: members k' end.
Lemma lit_no_form n : ~ starts_with_form [lit n].
Proof. apply split_form_none. reflexivity. Qed.
Lemma numbers_exprs k : exprs dP (numbers k) (S k).
Proof.
  assert (HL : dP [lit 7] = POk [lit 7] []) by reflexivity.
  induction k as [|k IH]; [exact (X_one dP [lit 7] _ (lit_no_form 7) HL)|exact (X_more dP [lit 7] _ _ _ (lit_no_form 7) HL IH)].
Qed.
Lemma members_fields k : fields dP (members k) (S k).
Proof.
  assert (HL : dP [lit 7] = POk [lit 7] []) by reflexivity.
  assert (HK : key dP [TIdent (s2l "a")] [TIdent (s2l "a")]).
  { apply K_plain; [reflexivity|intros k' Q; discriminate|]. intros q r Q NE. destruct q as [|q0 q]; [congruence|]. injection Q as <- Q.
    destruct q; [|discriminate]. discriminate. }
  induction k as [|k IH]; [exact (Y_one dP _ _ [lit 7] _ HK (lit_no_form 7) HL)|exact (Y_more dP _ _ [lit 7] _ _ _ HK (lit_no_form 7) HL IH)].
Qed.
Example C82_tuples : (exists v, compiles_within dP dfrom dkey (fun _ => O) 1 128 [TGroup Paren (numbers 61)] v) /\
  ~ (exists v, compiles_within dP dfrom dkey (fun _ => O) 1 128 [TGroup Paren (numbers 62)] v).
Proof.
  rewrite (proj1 (C82_default_limit _ dP dfrom dkey demo_parser_rustc_like _ _) (numbers_exprs 61)).
  rewrite (proj1 (C82_default_limit _ dP dfrom dkey demo_parser_rustc_like _ _) (numbers_exprs 62)). lia.
Qed.
Example C82_structs : (exists v, compiles_within dP dfrom dkey (fun _ => O) 1 128 [TGroup Brace (members 40)] v) /\
  ~ (exists v, compiles_within dP dfrom dkey (fun _ => O) 1 128 [TGroup Brace (members 41)] v).
Proof.
  rewrite (proj2 (C82_default_limit _ dP dfrom dkey demo_parser_rustc_like _ _) (members_fields 40)).
  rewrite (proj2 (C82_default_limit _ dP dfrom dkey demo_parser_rustc_like _ _) (members_fields 41)). lia.
Qed.
(** [value!((7, A { a: 7, }))]: 16 levels, of which the nested variant takes 7. *)
Example C82_mixed : expand_d dP dfrom dkey (fun _ => O) 1 20 [TGroup Paren [lit 7; TComma; TIdent (s2l "A"); TGroup Brace [TIdent (s2l "a"); TColon; lit 7; TComma]]]
  = Some (unnamed_composite [vu128 7; named_variant (s2l "A") [(s2l "a", vu128 7)]], 16%nat).
Proof. vm_compute. reflexivity. Qed.
