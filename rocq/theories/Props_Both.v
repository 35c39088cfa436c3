(** * Props_Both: C72, [value!] and [from_str] on the same source text *)
From Verif Require Import Base Value Chars Parse Spec_Grammar Macro Spec_Macro MacroExact MacroDemo Spec_Fmt Spec_Both Props_Parse Props_Macro.

(** Literals are expressions for rustc whose value, signs aside, is the value the text syntax gives them; identifiers are
    expressions that print as themselves. *)
Record literals_agree {E} (U : unicode) (P : list tok -> eparse E) (from : E -> value unit) (key_name : E -> str)
    (L : list tok -> str -> value unit -> Prop) : Prop := {
  la_literal : forall ts t v, L ts t v -> ~ starts_with_form ts /\ grammar U (unsigned_form v) t /\ exists e, P ts = POk e [] /\ from e = v;
  la_name : forall n, g_ident U n -> exists e, P [TIdent n] = POk e [] /\ key_name e = n }.

Lemma both_forms {E} U (P : list tok -> eparse E) from key_name L : rustc_like P -> literals_agree U P from key_name L ->
  (forall ts t v, both U L ts t v -> item P from key_name ts v /\ grammar U (unsigned_form v) t) /\
  (forall ts t c, both_composite U L ts t c ->
     (exists d l, (d = Paren \/ d = Brace) /\ ts = [TGroup d l]) /\ 
     form P from key_name ts (without_context (DComposite c)) /\ (forall n, form P from key_name (TIdent n :: ts) (variant n c)) /\
     exists c', g_comp U no_custom c' t /\ (forall n, unsigned_form (variant n c) = variant n c') /\ unsigned_form (without_context (DComposite c)) = without_context (DComposite c')) /\
  (forall ts t vs, both_items U L ts t vs -> items P from key_name ts vs /\ g_items U no_custom (map unsigned_form vs) t) /\
  (forall ts t kvs, both_entries U L ts t kvs -> entries P from key_name ts kvs /\ g_fields U no_custom (map (fun kv => (fst kv, unsigned_form (snd kv))) kvs) t).
Proof.
  intros HP HL.
  assert (KEY : forall n, g_ident U n -> exists e, key P [TIdent n] e /\ key_name e = n).
  { intros n HN. destruct (la_name _ _ _ _ _ HL n HN) as (e & He & Hn). exists e. split; [|exact Hn]. apply K_plain; [exact He|discriminate|].
    intros q r E0 NQ. destruct q as [|t q]; [now destruct NQ|]. injection E0 as <- E0. destruct q; [|discriminate E0]. rewrite He. discriminate. }
  apply both_ind4.
  - intros ts t v H. destruct (la_literal _ _ _ _ _ HL _ _ _ H) as (NF & G & e & He & <-). split; [now apply I_expr|exact G].
  - intros name nts nt ts t c HN _ (_ & F & FV & c' & G & EV & EC). destruct HN as [|n w GN W]; cbn [app].
    + split; [now apply I_form|]. rewrite EC. now apply G_composite.
    + split; [apply I_form, FV|]. rewrite EV. rewrite <- app_assoc. now apply G_variant.
  - intros w W. split; [exists Paren, []; now split; [left|]|]. split; [apply F_tuple; constructor|]. split; [intro n; apply F_variant; constructor|].
    exists (Unnamed []). split; [now apply G_unnamed_empty|]. split; reflexivity.
  - intros w ts t w' vs W _ [I G] W'. split; [exists Paren, ts; now split; [left|]|]. split; [now apply F_tuple|]. split; [intro n; now apply F_variant|].
    exists (Unnamed (map unsigned_form vs)). split; [now apply G_unnamed|]. split; reflexivity.
  - intros w W. split; [exists Brace, []; now split; [right|]|]. split; [apply F_struct; constructor|]. split; [intro n; apply F_struct_variant; constructor|].
    exists (Named []). split; [now apply G_named_empty|]. split; reflexivity.
  - intros w ts t w' vs W _ [I G] W'. split; [exists Brace, ts; now split; [right|]|]. split; [now apply F_struct|]. split; [intro n; now apply F_struct_variant|].
    exists (Named (map (fun kv => (fst kv, unsigned_form (snd kv))) vs)). split; [now apply G_named|]. split; reflexivity.
  - intros ts t v _ [I G]. split; [now apply Is_last|]. now apply GI_one.
  - intros ts t v w w' ts' t' vs _ [I G] W W' _ [Is Gs]. split; [now apply Is_cons|]. cbn [map]. now apply GI_cons.
  - intros n w w' ts t v GN W W' _ [I G]. destruct (KEY n GN) as (e & K & EN). split.
    + rewrite <- EN at 2. now apply Es_last.
    + cbn [map fst snd]. apply GFs_one; auto. now apply GF_ident.
  - intros n w w' ts t v w1 w2 ts' t' kvs GN W W' _ [I G] W1 W2 _ [Es Gs]. destruct (KEY n GN) as (e & K & EN). split.
    + rewrite <- EN at 2. now apply Es_cons.
    + cbn [map fst snd]. apply GFs_cons; auto. now apply GF_ident.
Qed.

(** The macro and the parser build the same value from the same source text, except that non-negative numbers are unsigned
    in the parsed one. *)
Theorem C72_macro_and_text_agree : forall (E : Type) U (P : list tok -> eparse E) (from : E -> value unit) (key_name : E -> str) L,
  unicode_ok U -> rustc_like P -> literals_agree U P from key_name L ->
  forall ts t v, both U L ts t v -> value_macro P from key_name ts v /\ from_str U t = (Ok (unsigned_form v), []).
Proof.
  intros E U P from kn L HU HP HL ts t v H. split.
  - apply C47_value_macro_exact; [exact HP|]. destruct (both_forms U P from kn L HP HL) as (HB & HC & _). destruct H as [ts t v H|name nts nt ts t c HN H].
    + destruct (la_literal _ _ _ _ _ HL _ _ _ H) as (NF & G & e & He & <-). apply D_expr; [| |exact He].
      * intro F. apply NF. exists ts, []. split; [now rewrite app_nil_r|exact F].
      * intros ->. destruct (rl_split P HP _ _ _ He) as (pre & N & E0 & _). destruct pre; [now apply N|discriminate E0].
    + destruct (HC _ _ _ H) as (_ & F & FV & _). apply D_form. destruct HN; [exact F|apply FV].
  - apply C11_exact; [exact HU|]. exact (proj2 (proj1 (both_forms U P from kn L HP HL) ts t v H)).
Qed.
Print Assumptions C72_macro_and_text_agree.

(** The values themselves need not be equal: an [i32] literal is signed for the macro. *)
Theorem C72_equal_refuted : forall (E : Type) U (P : list tok -> eparse E) (from : E -> value unit) (key_name : E -> str) ts e,
  unicode_ok U -> rustc_like P -> P ts = POk e [] -> ~ is_form ts -> from e = vi128 5 ->
  value_macro P from key_name ts (vi128 5) /\ from_str U (s2l "5") = (Ok (vu128 5), []).
Proof.
  intros E U P from kn ts e HU HP He NF EF. split; [|reflexivity]. apply C47_value_macro_exact; [exact HP|]. rewrite <- EF. apply D_expr; auto.
  intros ->. destruct (rl_split P HP _ _ _ He) as (pre & N & E0 & _). destruct pre; [now apply N|discriminate E0].
Qed.
Print Assumptions C72_equal_refuted.

(** The number literals of the demonstration parser. *)
Definition demo_literal (ts : list tok) (t : str) (v : value unit) : Prop :=
  exists n, ts = [lit n] /\ g_digits n t /\ (n < 2 ^ 128)%N /\ v = vu128 n.

Lemma demo_literals_agree : literals_agree sample_unicode dP dfrom dkey demo_literal.
Proof.
  split.
  - intros ts t v (n & -> & G & HN & ->). split; [|split].
    + intros (pre & rest & E & d & l & _ & [->|[m ->]]); discriminate E.
    + apply G_number. now apply GN_plain.
    + exists [lit n]. unfold lit. split.
      * cbn [dP starts_operand dgo]. replace (n + 2 =? 1)%N with false by (symmetry; apply N.eqb_neq; lia). replace (n + 2 =? 0)%N with false by (symmetry; apply N.eqb_neq; lia). reflexivity.
      * cbn [dfrom]. f_equal. lia.
  - intros n _. exists [TIdent n]. split; reflexivity.
Qed.

Example C72_non_vacuous :
  unicode_ok sample_unicode /\ rustc_like dP /\ literals_agree sample_unicode dP dfrom dkey demo_literal /\
  both sample_unicode demo_literal
    ([TIdent (s2l "Foo")] ++ [TGroup Brace ([TIdent (s2l "a")] ++ TColon :: ([] ++ [TGroup Paren ([lit 1] ++ TComma :: [lit 20])]))])
    ((s2l "Foo" ++ s2l " ") ++ ([c_lbrace] ++ [] ++ (s2l "a" ++ [] ++ [c_colon] ++ s2l " " ++ ([] ++ ([c_lpar] ++ [] ++ (s2l "1" ++ [] ++ [c_comma] ++ [] ++ s2l "20") ++ [] ++ [c_rpar]))) ++ s2l " " ++ [c_rbrace]))
    (named_variant (s2l "Foo") [(s2l "a", unnamed_composite [vu128 1; vu128 20])]).
Proof.
  split; [exact sample_unicode_ok|]. split; [exact demo_parser_rustc_like|]. split; [exact demo_literals_agree|].
  assert (DL : forall n t, g_digits n t -> (n < 2 ^ 128)%N -> both sample_unicode demo_literal [lit n] t (vu128 n)).
  { intros n t G HN. apply B_lit. exists n. auto. }
  apply (B_fields sample_unicode demo_literal (Some (s2l "Foo"))).
  - apply BN_some; [|reflexivity]. apply GV_ident.
    + exists 70%N, (s2l "oo"). repeat split.
    + intros (r & E). discriminate E.
    + intros (r & E). discriminate E.
  - apply BC_entries; [reflexivity| |reflexivity]. apply BE_one; [|reflexivity|reflexivity|].
    + exists 97%N, []. repeat split.
    + apply (B_fields sample_unicode demo_literal None); [constructor|]. apply BC_items; [reflexivity| |reflexivity]. apply BI_cons; [|reflexivity|reflexivity|apply BI_one].
      * apply DL; [|reflexivity]. exists 49%N, []. repeat split.
      * apply DL; [|reflexivity]. exists 50%N, [48%N]. repeat split.
Qed.
