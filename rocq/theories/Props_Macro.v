(** * Props_Macro: C47, C58 *)
From Verif Require Import Base Value Spec_Value ValueFacts Macro Spec_Macro MacroFacts MacroExact MacroDemo.
From Coq Require Import Lia ZArith.
Local Open Scope N_scope.

(** ** C47: [value!] *)

(** For any expression parser that works like rustc's: [value!] compiles exactly on the grammar of Spec_Macro, and builds the
    value the grammar gives. *)
Theorem C47_value_macro_exact : forall (E : Type) (P : list tok -> eparse E) (from : E -> value unit) (key_name : E -> str),
  rustc_like P -> forall ts v, value_macro P from key_name ts v <-> denotes P from key_name ts v.
Proof. intros E P from kn HP ts v. rewrite value_macro_iff. apply expand_exact, HP. Qed.
Print Assumptions C47_value_macro_exact.

Theorem C47_value_macro_rejects : forall (E : Type) (P : list tok -> eparse E) (from : E -> value unit) (key_name : E -> str),
  rustc_like P -> forall ts, does_not_compile P from key_name ts <-> ~ exists v, denotes P from key_name ts v.
Proof.
  intros E P from kn HP ts. split.
  - intros H [v Hv]. apply (expand_exact P from kn HP) in Hv as [f Hf]. rewrite H in Hf. discriminate.
  - intros H f. destruct (expand P from kn f ts) as [v|] eqn:Ef; [|reflexivity].
    exfalso. apply H. exists v. apply (expand_exact P from kn HP). eauto.
Qed.
Print Assumptions C47_value_macro_rejects.

(** The grammar is unambiguous. *)
Theorem C47_unambiguous : forall (E : Type) (P : list tok -> eparse E) (from : E -> value unit) (key_name : E -> str),
  rustc_like P -> forall ts v v', denotes P from key_name ts v -> denotes P from key_name ts v' -> v = v'.
Proof.
  intros E P from kn HP ts v v' H H'. apply (expand_exact P from kn HP) in H as [f Hf]. apply (expand_exact P from kn HP) in H' as [f' Hf'].
  apply (expand_mono P from kn f (f + f')) in Hf; [|lia]. apply (expand_mono P from kn f' (f + f')) in Hf'; [|lia]. congruence.
Qed.
Print Assumptions C47_unambiguous.

(** A trailing comma changes nothing. *)
Lemma items_comma {E} (P : list tok -> eparse E) from kn l vs : items P from kn l vs -> l <> [] -> (forall p, l <> p ++ [TComma]) ->
  items P from kn (l ++ [TComma]) vs.
Proof.
  induction 1 as [|ts v Hi|ts v rest vs Hi Hr IH]; intros Hn Hc; [congruence|apply Is_cons; [exact Hi|constructor]|].
  rewrite <- app_assoc. cbn [app]. apply Is_cons; [exact Hi|]. apply IH.
  - intros ->. apply (Hc ts). reflexivity.
  - intros p ->. apply (Hc (ts ++ TComma :: p)). rewrite <- app_assoc. reflexivity.
Qed.
Lemma entries_comma {E} (P : list tok -> eparse E) from kn l vs : entries P from kn l vs -> l <> [] -> (forall p, l <> p ++ [TComma]) ->
  entries P from kn (l ++ [TComma]) vs.
Proof.
  induction 1 as [|ks e ts v Hk Hi|ks e ts v rest vs Hk Hi Hr IH]; intros Hn Hc; [congruence| |].
  - rewrite <- app_assoc. cbn [app]. apply Es_cons; [exact Hk|exact Hi|constructor].
  - replace ((ks ++ TColon :: ts ++ TComma :: rest) ++ [TComma]) with (ks ++ TColon :: ts ++ TComma :: (rest ++ [TComma])).
    2:{ rewrite <- app_assoc. cbn [app]. rewrite <- app_assoc. reflexivity. }
    apply Es_cons; [exact Hk|exact Hi|]. apply IH.
    + intros ->. apply (Hc (ks ++ TColon :: ts)). rewrite <- app_assoc. reflexivity.
    + intros p ->. apply (Hc (ks ++ TColon :: ts ++ TComma :: p)). rewrite <- app_assoc. cbn [app]. rewrite <- app_assoc. reflexivity.
Qed.

Theorem C47_trailing_comma : forall (E : Type) (P : list tok -> eparse E) (from : E -> value unit) (key_name : E -> str),
  rustc_like P -> forall name d l v, l <> [] -> (forall p, l <> p ++ [TComma]) -> (name = [] \/ exists n, name = [TIdent n]) ->
  d <> Bracket -> value_macro P from key_name (name ++ [TGroup d l]) v -> value_macro P from key_name (name ++ [TGroup d (l ++ [TComma])]) v.
Proof.
  intros E P from kn HP name d l v Hn Hc Hname Hd. rewrite !C47_value_macro_exact by exact HP. intros H.
  assert (Hf : forall l', is_form (name ++ [TGroup d l'])).
  { intros l'. exists d, l'. split; [destruct d; auto; congruence|]. destruct Hname as [->|[n ->]]; [left|right; exists n]; reflexivity. }
  apply D_form. inversion H as [Hx|ts v' HF Hx|ts e Hx]; subst.
  - destruct name; discriminate.
  - destruct Hname as [->|[n ->]]; inversion HF; subst; constructor; (apply items_comma || apply entries_comma); assumption.
  - exfalso. apply Hx, Hf.
Qed.
Print Assumptions C47_trailing_comma.

(** [name(..)] is a variant, whatever function [name] may be; this also holds for words such as [unsafe { .. }]. *)
Theorem C47_never_a_call : forall (E : Type) (P : list tok -> eparse E) (from : E -> value unit) (key_name : E -> str) n l v,
  (value_macro P from key_name [TIdent n; TGroup Paren l] v -> exists vs, v = unnamed_variant n vs) /\
  (value_macro P from key_name [TIdent n; TGroup Brace l] v -> exists kvs, v = named_variant n kvs).
Proof.
  intros E P from kn n l v. rewrite !value_macro_iff.
  split; intros [f H]; (destruct f; [discriminate|]).
  - rewrite expand_vparen in H. destruct (unnamed_rules P f [] l) as [ms|]; [|discriminate]. cbn [obind] in H.
    destruct (values_with _ _ ms) as [vs|]; [|discriminate]. injection H as <-. eauto.
  - rewrite expand_vbrace in H. destruct (named_rules P kn f [] [] l) as [ms|]; [|discriminate]. cbn [obind] in H.
    destruct (entries_with _ _ ms) as [vs|]; [|discriminate]. injection H as <-. eauto.
Qed.
Print Assumptions C47_never_a_call.

(** Between the parts of a tuple only commas: nothing may follow a nested form (so [(1) + 2] and [f(x) + 1] are not accepted
    as elements, though they are expressions). *)
Theorem C47_unexpected_token : forall (E : Type) (P : list tok -> eparse E) (from : E -> value unit) (key_name : E -> str),
  rustc_like P -> forall before form t rest name,
  (forall ts, In ts before -> exists v, item P from key_name ts v) -> is_form form -> t <> TComma -> (name = [] \/ exists n, name = [TIdent n]) ->
  does_not_compile P from key_name (name ++ [TGroup Paren (concat (map (fun ts => ts ++ [TComma]) before) ++ form ++ t :: rest)]).
Proof.
  intros E P from kn HP before fm t rest name Hb Hf Ht Hname.
  assert (HU : forall f acc, unnamed_rules P f acc (concat (map (fun ts => ts ++ [TComma]) before) ++ fm ++ t :: rest) = None).
  { induction before as [|ts before IH]; intros f acc; (destruct f as [|f]; [reflexivity|]).
    - cbn [map concat app]. rewrite unnamed_step, (split_form_app _ _ Hf).
      pose proof Hf as Hf'. destruct Hf' as (d & l & _ & [->|[n ->]]); cbn [app]; destruct t; try congruence; reflexivity.
    - cbn [map concat]. rewrite <- !app_assoc. cbn [app].
      destruct (Hb ts (or_introl eq_refl)) as [v Hv].
      apply (proj1 (proj2 (complete_all P from kn HP))) in Hv as (m & Hm & _).
      pose proof (mitem_ne P HP _ _ Hm) as Hne.
      assert (IH' := IH (fun ts' Hin => Hb ts' (or_intror Hin)) f (acc ++ [m])).
      rewrite unnamed_step. destruct ts as [|t0 ts]; [congruence|]. cbn [app].
      change (t0 :: ts ++ TComma :: ?r) with ((t0 :: ts) ++ TComma :: r).
      match goal with |- context [TComma :: ?r] => set (rr := r) in * end.
      destruct Hm as [[Hfm ->]|(e & Hs & He & ->)].
      + change (t0 :: ts ++ TComma :: rr) with ((t0 :: ts) ++ TComma :: rr). rewrite (split_form_app _ _ Hfm). exact IH'.
      + change (t0 :: ts ++ TComma :: rr) with ((t0 :: ts) ++ TComma :: rr).
        rewrite (split_form_sep _ TComma rr (or_introl eq_refl) Hne (no_form_split _ Hs)).
        rewrite (rl_stop P HP _ _ TComma rr He (or_introl eq_refl)). exact IH'. }
  intros f. destruct f as [|f]; [reflexivity|]. rewrite expand_step.
  destruct Hname as [->|[n ->]]; cbn [app].
  - specialize (HU f []). destruct (concat _ ++ _) as [|a l] eqn:El.
    + exfalso. apply app_eq_nil in El as [_ El]. apply app_eq_nil in El as [_ El]. discriminate.
    + rewrite HU. reflexivity.
  - rewrite HU. reflexivity.
Qed.
Print Assumptions C47_unexpected_token.

(** Entries of a struct need a colon. *)
Lemma entries_colon {E} (P : list tok -> eparse E) from kn l kvs : entries P from kn l kvs -> l = [] \/ In TColon l.
Proof.
  intros H. inversion H; subst; [auto|right; apply in_or_app; right; left; reflexivity|right; apply in_or_app; right; left; reflexivity].
Qed.
Theorem C47_missing_colon : forall (E : Type) (P : list tok -> eparse E) (from : E -> value unit) (key_name : E -> str),
  rustc_like P -> forall name l, l <> [] -> ~ In TColon l -> (name = [] \/ exists n, name = [TIdent n]) ->
  does_not_compile P from key_name (name ++ [TGroup Brace l]).
Proof.
  intros E P from kn HP name l Hn Hc Hname. apply C47_value_macro_rejects; [exact HP|]. intros [v H].
  assert (Hf : is_form (name ++ [TGroup Brace l])).
  { exists Brace, l. split; [auto|]. destruct Hname as [->|[n ->]]; [left|right; exists n]; reflexivity. }
  inversion H as [Hx|ts v' HF Hx|ts e Hx]; subst.
  - destruct name; discriminate.
  - assert (HE : exists kvs, entries P from kn l kvs) by (destruct Hname as [->|[n ->]]; inversion HF; subst; eauto).
    destruct HE as [kvs HE]. destruct (entries_colon P from kn l kvs HE); contradiction.
  - contradiction.
Qed.
Print Assumptions C47_missing_colon.

(** A key may not be left out, nor may the value. *)
Theorem C47_missing_key_or_value : forall (E : Type) (P : list tok -> eparse E) (from : E -> value unit) (key_name : E -> str),
  rustc_like P -> forall rest ks e,
  does_not_compile P from key_name [TGroup Brace (TColon :: rest)] /\
  (key P ks e -> does_not_compile P from key_name [TGroup Brace (ks ++ [TColon])]).
Proof.
  intros E P from kn HP rest ks e. split.
  - intros [|[|f]]; reflexivity.
  - intros Hk.
    assert (HN : forall f acc, named_rules P kn f acc [] (ks ++ [TColon]) = None).
    { inversion Hk as [k e' Hk'|ks' e' He Hpar Hpre]; subst.
      - intros [|f] acc; [reflexivity|]. cbn [app]. rewrite named_step. cbn [others]. rewrite Hk'. rewrite value_rules_step. cbn [split_form].
        destruct (P []) as [| |e0 r0] eqn:E0; try reflexivity. exfalso. exact (P_nil P HP _ _ E0).
      - assert (HW : forall q p f acc, ks = p ++ q -> p <> [] -> named_rules P kn f acc p (q ++ [TColon]) = None).
        { induction q as [|t q IH]; intros p f acc Hks Hp; (destruct f as [|f]; [reflexivity|]).
          - rewrite app_nil_r in Hks. subst p. cbn [app]. rewrite named_step. destruct ks as [|k0 ks]; [congruence|]. rewrite He.
            rewrite value_rules_step. cbn [split_form].
            destruct (P []) as [| |e0 r0] eqn:E0; try reflexivity. exfalso. exact (P_nil P HP _ _ E0).
          - destruct (key_prefix P HP ks e p t q He Hpre Hks Hp) as ([e' Ep] & Hc & Hcol).
            cbn [app]. rewrite named_step. destruct p as [|p0 ps]; [congruence|]. rewrite Ep.
            assert (IH' := IH ((p0 :: ps) ++ [t]) f acc ltac:(rewrite <- app_assoc; exact Hks) ltac:(discriminate)).
            destruct t; try congruence; exact IH'. }
        destruct ks as [|t q]; [exfalso; exact (P_nil P HP _ _ He)|].
        intros [|f] acc; [reflexivity|]. cbn [app]. rewrite named_step.
        assert (HW' := HW q [t] f acc eq_refl ltac:(discriminate)).
        destruct t as [n| | |n|d l]; try exact HW'.
        + rewrite (rl_begin P HP TComma q) in He by auto. discriminate.
        + reflexivity.
        + destruct d; try exact HW'. destruct q as [|u q].
          * destruct (Hpar l eq_refl) as [Hf Hfull]. cbn [app others].
            destruct (P l) as [| |e1 [|w ws]] eqn:El; [exact HW'|congruence|exfalso; apply (Hfull e1); reflexivity|exact HW'].
          * destruct (key_prefix P HP _ e [TGroup Paren l] u q He Hpre eq_refl) as (_ & _ & Hcol); [discriminate|].
            destruct u; try congruence; exact HW'. }
    intros [|f]; [reflexivity|]. rewrite expand_step. destruct (ks ++ [TColon]) as [|a l] eqn:El.
    + destruct ks; discriminate.
    + specialize (HN f []). rewrite HN. reflexivity.
Qed.
Print Assumptions C47_missing_key_or_value.

(** An expression is not always accepted as a key: with a parser that works like rustc's, [{ - 5: 1 }] does not compile,
    although [- 5] is an expression and [{ (- 5): 1 }] compiles. *)
Theorem C47_any_expression_as_key_refuted :
  rustc_like dP /\ exists ks e, dP ks = POk e [] /\
  does_not_compile dP dfrom dkey [TGroup Brace (ks ++ [TColon; lit 1])] /\
  exists v, value_macro dP dfrom dkey [TGroup Brace [TGroup Paren ks; TColon; lit 1]] v.
Proof.
  split; [exact demo_parser_rustc_like|]. exists [t_minus; lit 5], [t_minus; lit 5]. split; [reflexivity|]. split.
  - intros [|[|[|[|f]]]]; reflexivity.
  - exists (named_composite [([0], vu128 1)]). rewrite value_macro_iff. exists 5%nat. reflexivity.
Qed.
Print Assumptions C47_any_expression_as_key_refuted.

(** The example in the documentation, [POST { data: (1, v1(1, 2 + 3,), 3), other: {} }]. *)
Example C47_example : forall data other post v1,
  denotes dP dfrom dkey
    [TIdent post; TGroup Brace [TIdent data; TColon;
       TGroup Paren [lit 1; TComma; TIdent v1; TGroup Paren [lit 1; TComma; lit 2; t_plus; lit 3; TComma]; TComma; lit 3]; TComma;
       TIdent other; TColon; TGroup Brace []]]
    (named_variant post [(data, unnamed_composite [vu128 1; unnamed_variant v1 [vu128 1; vu128 3]; vu128 3]); (other, named_composite [])]).
Proof.
  intros data other post v1. apply (expand_exact dP dfrom dkey demo_parser_rustc_like). exists 9%nat. reflexivity.
Qed.
(** [(1, (2) + 3)] is rejected though [(2) + 3] is an expression. *)
Example C47_example_reject : does_not_compile dP dfrom dkey [TGroup Paren [lit 1; TComma; TGroup Paren [lit 2]; t_plus; lit 3]] /\
  dP [TGroup Paren [lit 2]; t_plus; lit 3] = POk [TGroup Paren [lit 2]; t_plus; lit 3] [].
Proof.
  split; [|reflexivity].
  apply (C47_unexpected_token _ dP dfrom dkey demo_parser_rustc_like [[lit 1]] [TGroup Paren [lit 2]] t_plus [lit 3] []).
  - intros ts [<-|[]]. exists (vu128 1). apply (I_expr dP dfrom dkey [lit 1] [lit 1]); [|reflexivity].
    intros (p & r & Hp & Hf). destruct (is_form_cases _ Hf) as (l & [->|[->|[[n ->]|[n ->]]]]); discriminate.
  - exists Paren, [lit 2]. auto.
  - discriminate.
  - auto.
Qed.
Example C47_example_missing : does_not_compile dP dfrom dkey [TGroup Brace [TIdent [97]; TComma; lit 3]] /\
  does_not_compile dP dfrom dkey [TGroup Brace [TIdent [97]; TColon]].
Proof.
  split.
  - apply (C47_missing_colon _ dP dfrom dkey demo_parser_rustc_like [] [TIdent [97]; TComma; lit 3]); [discriminate| |auto].
    intros [H|[H|[H|[]]]]; discriminate.
  - apply (proj2 (C47_missing_key_or_value _ dP dfrom dkey demo_parser_rustc_like [] [TIdent [97]] [TIdent [97]])).
    apply K_plain; [reflexivity|discriminate|].
    intros q r Hq Hn. destruct q as [|a q]; [congruence|]. destruct q; [|destruct q; discriminate]. injection Hq as <- _. discriminate.
Qed.

(** ** C58: conversions from Rust data *)

(** [Value::from] keeps scalars, and the positions and names of vectors and of lists of pairs. *)
Theorem C58_from : forall r t, of_type r t ->
  match r with
  | RBool b => as_bool (value_from r) = Some b
  | RChar c => as_char (value_from r) = Some c
  | RString s => as_str (value_from r) = Some s
  | RUint _ n => as_u128 (value_from r) = Some n
  | RInt _ z => as_i128 (value_from r) = Some z
  | RBits b => vdef_of (value_from r) = DBits b
  | RVec l => forall i, at_value (value_from r) (LIdx i) = option_map value_from (nth_error l i)
  | RPairs l =>
      (forall i, at_value (value_from r) (LIdx i) = option_map (fun kv => value_from (snd kv)) (nth_error l i)) /\
      (forall k x before after, l = before ++ (k, x) :: after -> ~ In k (map fst before) ->
        at_value (value_from r) (LStr k) = Some (value_from x))
  | RComposite c => vdef_of (value_from r) = DComposite c
  | RVariant n c => vdef_of (value_from r) = DVariant n c
  | RValue v => value_from r = v
  end.
Proof.
  intros r t Ht. destruct r as [b|c|s|w n|w z|b|l|l|c|n c|v]; try reflexivity.
  - destruct t; try contradiction Ht. destruct Ht as (_ & Hw & Hn). rewrite value_from_uint by assumption. reflexivity.
  - destruct t; try contradiction Ht. destruct Ht as (_ & Hw & Hn). rewrite value_from_int by assumption. reflexivity.
  - intros i. cbn [value_from at_value at_composite vdef_of]. apply nth_error_map.
  - split.
    + intros i. cbn [value_from at_value at_composite vdef_of]. rewrite nth_error_map.
      destruct (nth_error l i) as [[k x]|]; reflexivity.
    + intros k x before after -> Hk. cbn [value_from at_value at_composite vdef_of].
      induction before as [|[k' x'] before IH]; cbn [app map find_field].
      * destruct (str_eqb k k) eqn:Ek; [reflexivity|]. exfalso. apply Bool.not_true_iff_false in Ek. apply Ek. apply str_eqb_eq. reflexivity.
      * destruct (str_eqb k k') eqn:Ek.
        { exfalso. apply Hk. left. symmetry. apply str_eqb_eq, Ek. }
        apply IH. { destruct t; try contradiction Ht. cbn [app] in Ht. exact (proj2 Ht). } intros Hin. apply Hk. right. exact Hin.
Qed.
Print Assumptions C58_from.

(** Two different data of one type become different values. *)
Theorem C58_from_injective : forall t a b, of_type a t -> of_type b t -> value_from a = value_from b -> a = b.
Proof. exact value_from_injective. Qed.
Print Assumptions C58_from_injective.

(** [value!((e1, .., en))] is [Value::from(vec![e1, .., en])] when the elements are expressions, and likewise for named fields. *)
Theorem C58_macro_is_from : forall (P : list tok -> eparse rust) (key_name : rust -> str), rustc_like P ->
  forall (es : list (list tok * rust)),
  (forall ts e, In (ts, e) es -> P ts = POk e [] /\ ~ starts_with_form ts) ->
  value_macro P value_from key_name [TGroup Paren (concat (map (fun te => fst te ++ [TComma]) es))] (value_from (RVec (map snd es))).
Proof.
  intros P kn HP es He. apply C47_value_macro_exact; [exact HP|]. apply D_form. cbn [value_from].
  apply (F_tuple P value_from kn). induction es as [|[ts e] es IH]; [constructor|].
  cbn [map concat fst snd]. rewrite <- app_assoc. cbn [app].
  destruct (He ts e (or_introl eq_refl)) as [Hp Hs].
  apply Is_cons; [apply I_expr; assumption|]. apply IH. intros ts' e' Hin. apply He. right. exact Hin.
Qed.
Print Assumptions C58_macro_is_from.

Example C58_example : exists v, of_type (RPairs [([97], RVec [RUint 8 255; RUint 8 0]); ([98], RVec [])]) (TPairs (TVec (TUint 8))) /\
  value_from (RPairs [([97], RVec [RUint 8 255; RUint 8 0]); ([98], RVec [])]) = v /\
  v = named_composite [([97], unnamed_composite [vu128 255; vu128 0]); ([98], unnamed_composite [])].
Proof.
  eexists. split; [|split; [reflexivity|vm_compute; reflexivity]].
  cbn [of_type fold_right]. repeat split; lia.
Qed.
