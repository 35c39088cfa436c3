(** * Props_Texts: C61 (texts of parse errors, complete), C42 (the calls of [Serialize for Value], complete), C71 (tags in sequences) *)
From Verif Require Import Base Value Chars Spec_Grammar Parse Fmt FmtText Messages MessageFacts Serde Spec_Serde SerdeFacts SerdeRt SerdeTargets SerdeContent Spec_Content SerdeContentFacts Props_Parse Props_Content Spec_Texts.
Local Open Scope N_scope.

(** ** C61 *)
Lemma show_numeral n : numeral n (show_N n).
Proof.
  destruct (show_N_spec n) as (d & r & E & H1 & H2 & H3). unfold numeral. rewrite E. split; [exact H1|]. split; [exact H2|]. split; [discriminate|].
  intros r' [= -> ->]. apply H3. reflexivity.
Qed.
(** The whole text of an error. *)
Theorem C61_text : forall int_msg e, err e <> EFuel -> exists a t, numeral (start_loc e) a /\ says int_msg (err e) t /\
  match end_loc e with
  | None => perr_display int_msg e = s2l "Error at char " ++ a ++ s2l ": " ++ t
  | Some l => exists b, numeral l b /\ perr_display int_msg e = s2l "Error from char " ++ a ++ s2l " to " ++ b ++ s2l ": " ++ t
  end.
Proof.
  intros int_msg [st en k] HK. cbn [err start_loc end_loc] in *. exists (show_N st), (kind_text int_msg k). split; [apply show_numeral|]. split.
  - destruct k; try contradiction (HK eq_refl); cbn [kind_text]; unfold closing_quote_text; try constructor; apply show_numeral.
  - unfold perr_display. cbn [err start_loc end_loc]. destruct en as [l|]; [|reflexivity]. exists (show_N l). split; [apply show_numeral|reflexivity].
Qed.
Print Assumptions C61_text.
Example C61_text_example : exists e rest, from_str ascii_unicode (s2l "(1, ""ab") = (Err e, rest) /\ err e <> EFuel /\
  perr_display [] e = s2l "Error from char 7 to 8: Expected a closing quote to match the opening quote at position 4".
Proof. eexists _, _. split; [vm_compute; reflexivity|]. split; [discriminate|]. vm_compute. reflexivity. Qed.

(** A text belongs to one kind of error, but for those that look alike: unfinished characters and strings, and brackets opened elsewhere. *)
Theorem C61_kinds_told_apart : forall int_msg k1 k2 t, says int_msg k1 t -> says int_msg k2 t -> look_alike k1 k2.
Proof.
  assert (NU : forall a b t, numeral a t -> numeral b t -> a = b) by (intros a b t (_ & <- & _) (_ & <- & _); reflexivity).
  intros int_msg k1 k2 t H1 H2.
  destruct H1; inversion H2; subst;
    try (constructor; fail);
    try (exfalso; match goal with H : ?a = ?b |- _ => cbn [s2l str_of app] in H; discriminate H end);
    try (match goal with H : _ = _ |- _ => apply app_inv_head in H; try (injection H as ->); try subst end;
         repeat match goal with A : numeral ?a ?t, B : numeral ?b ?t |- _ => rewrite (NU a b t A B) in *; clear A end; constructor).
  all: match goal with A : numeral ?a ?t, B : numeral ?b ?t |- _ => rewrite (NU a b t A B) end; constructor.
Qed.
Print Assumptions C61_kinds_told_apart.
(** They do look alike. *)
Example C61_look_alike : forall n c n', (exists t, says [] (ECharClose n) t /\ says [] (EStrClose n) t) /\ (exists t, says [] (ECloser c n) t /\ says [] (ECloser c n') t).
Proof. intros n c n'. split; eexists; split; constructor; apply show_numeral. Qed.

(** ** C42 *)
(** The calls made by [Serialize for Value] are exactly these. *)
Theorem C42_calls : forall (T : Type) (v : value T) s, serialises v s <-> s = ser_value v.
Proof.
  assert (W : forall sg z, exists w, first_ok_type sg [8; 16; 32; 64; 128]%N z = SInt sg w z /\ narrowest sg w z).
  { intros sg z. unfold narrowest. cbn [first_ok_type].
    destruct (in_int sg 8 z) eqn:E8; [exists 8; split; [reflexivity|]; split; [cbn; auto|]; split; [left; apply in_int_range; exact E8|]; intros w' HI Hl; cbn [In] in HI; lia|].
    destruct (in_int sg 16 z) eqn:E16.
    { exists 16. split; [reflexivity|]. split; [cbn; auto|]. split; [left; apply in_int_range; exact E16|]. intros w' HI Hl HR. apply in_int_range in HR. cbn [In] in HI. destruct HI as [<-|HI]; [congruence|lia]. }
    destruct (in_int sg 32 z) eqn:E32.
    { exists 32. split; [reflexivity|]. split; [cbn; auto|]. split; [left; apply in_int_range; exact E32|]. intros w' HI Hl HR. apply in_int_range in HR. cbn [In] in HI. destruct HI as [<-|[<-|HI]]; [congruence|congruence|lia]. }
    destruct (in_int sg 64 z) eqn:E64.
    { exists 64. split; [reflexivity|]. split; [cbn; auto|]. split; [left; apply in_int_range; exact E64|]. intros w' HI Hl HR. apply in_int_range in HR. cbn [In] in HI. destruct HI as [<-|[<-|[<-|HI]]]; [congruence|congruence|congruence|lia]. }
    exists 128. split; [destruct (in_int sg 128 z); reflexivity|]. split; [cbn; auto 6|]. split; [right; reflexivity|]. intros w' HI Hl HR. apply in_int_range in HR. cbn [In] in HI. destruct HI as [<-|[<-|[<-|[<-|HI]]]]; try congruence. lia. }
  assert (NU : forall sg w w' z, narrowest sg w z -> narrowest sg w' z -> w = w').
  { intros sg w w' z (I1 & R1 & L1) (I2 & R2 & L2). destruct (N.lt_trichotomy w w') as [L|[E|L]]; [|exact E|].
    - exfalso. apply (L2 w I1 L). destruct R1 as [R1| ->]; [exact R1|]. cbn [In] in I2. lia.
    - exfalso. apply (L1 w' I2 L). destruct R2 as [R2| ->]; [exact R2|]. cbn [In] in I1. lia. }
  intros T v. induction v as [d ctx IH] using value_ind'. intro s.
  assert (HC : forall c : composite (value T), Forall (fun v => forall s, serialises v s <-> s = ser_value v) (values c) -> forall ctx s,
            serialises (Val (DComposite c) ctx) s <-> s = ser_composite_with ser_value c).
  { intros c HF ctx' s'. split.
    - intro H. inversion H as [l ss ? F|l ss ? F| | | | | | | | |]; subst; cbn [ser_composite_with values] in *; f_equal.
      + clear H. induction F as [|x y l ss Hxy F IHF]; [reflexivity|]. inversion HF as [|? ? Hx HF']; subst. cbn [map]. apply Hx in Hxy as ->. f_equal. apply IHF, HF'.
      + clear H. induction F as [|[k x] [a y] l ss [E Hxy] F IHF]; [reflexivity|]. inversion HF as [|? ? Hx HF']; subst. cbn [map fst snd] in *. subst a. apply Hx in Hxy as ->. f_equal. apply IHF, HF'.
    - intros ->. destruct c as [l|l]; cbn [ser_composite_with values] in *.
      + constructor. induction l as [|[k x] l IHl]; cbn [map] in *; [constructor|]. inversion HF as [|? ? Hx HF']; subst. constructor; [split; [reflexivity|apply Hx; reflexivity]|apply IHl, HF'].
      + constructor. induction l as [|x l IHl]; cbn [map] in *; [constructor|]. inversion HF as [|? ? Hx HF']; subst. constructor; [apply Hx; reflexivity|apply IHl, HF']. }
  destruct d as [c|n c|b|p]; cbn [children ser_value] in *.
  - apply HC, IH.
  - split.
    + intro H. inversion H as [| |? ? ? s' H'| | | | | | | |]; subst. apply (HC c IH) in H'. subst. reflexivity.
    + intros ->. unfold ser_variant_with. constructor. apply (HC c IH). reflexivity.
  - split; [intro H; inversion H; subst; reflexivity|intros ->; constructor].
  - destruct p as [b|c|t|n|z|b|b]; cbn [ser_prim]; try (split; [intro H; inversion H; subst; reflexivity|intros ->; constructor]).
    + destruct (W false (Z.of_N n)) as (w & E & HW). rewrite E. split; [intro H; inversion H as [| | | | | | |? w' ? HW'| | |]; subst; rewrite (NU _ _ _ _ HW HW'); reflexivity|intros ->; constructor; exact HW].
    + destruct (W true z) as (w & E & HW). rewrite E. split; [intro H; inversion H as [| | | | | | | |? w' ? HW'| |]; subst; rewrite (NU _ _ _ _ HW HW'); reflexivity|intros ->; constructor; exact HW].
Qed.
Print Assumptions C42_calls.
Example C42_calls_example : serialises (Val (DVariant (s2l "V") (Unnamed [vu128 300; vi128 (-1)])) tt)
  (SMap [(SStr (s2l "name"), SStr (s2l "V")); (SStr (s2l "values"), SSeq [SInt false 16 300; SInt true 8 (-1)])]).
Proof. apply C42_calls. reflexivity. Qed.

(** ** C71 *)
(** From an unnamed composite an internally tagged enum takes the first value as its tag; the others are buffered. *)
Theorem C71_internally_tagged_sequence : forall (T A : Type) tag (body : str -> content -> result A derr) (l : list (value T)) ctx r,
  de_internally_tagged tag body (SrcValue (Val (DComposite (Unnamed l)) ctx)) = Ok r <->
  exists v n l', l = v :: l' /\ from_value TyString v = Ok (XString n) /\ Forall no_numbers_or_variants l' /\ body n (KSeq (map content_of l')) = Ok r.
Proof.
  intros T A tag body l ctx r. unfold de_internally_tagged. cbn [deserialize vdef_of vdef_de composite_de composite_any bind values map].
  assert (HB : forall l' : list (value T), Forall no_numbers_or_variants l' -> mapM buffer (map SrcValue l') = Ok (map content_of l')).
  { induction 1 as [|x l' Hx Hl IH]; [reflexivity|]. cbn [map mapM]. rewrite (buffer_ok x Hx), IH. reflexivity. }
  assert (HB' : forall (l' : list (value T)) ks, mapM buffer (map SrcValue l') = Ok ks -> Forall no_numbers_or_variants l' /\ ks = map content_of l').
  { induction l' as [|x l' IH]; intros ks H; cbn [map mapM] in H; [injection H as <-; split; [constructor|reflexivity]|].
    apply bind_ok in H as (k & Hk & H). apply bind_ok in H as (ks' & Hks & H). injection H as <-.
    destruct (IH _ Hks) as [F ->]. assert (N : no_numbers_or_variants x).
    { destruct (buffer_value x) as [[N _]|[_ [e E]]]; [exact N|congruence]. }
    rewrite (buffer_ok x N) in Hk. injection Hk as <-. split; [constructor; assumption|reflexivity]. }
  destruct l as [|v l]; cbn [map].
  - split; [discriminate|]. intros (v & n & l' & E & _). discriminate.
  - split.
    + intro H. apply bind_ok in H as (n & Hn & H). apply bind_ok in H as (ks & Hks & H). destruct (HB' _ _ Hks) as [F ->]. exists v, n, l. split; [reflexivity|]. split; [unfold from_value; cbn [de]; rewrite Hn; reflexivity|]. split; assumption.
    + intros (v' & n & l' & [= <- <-] & Hn & F & H). unfold from_value in Hn. cbn [de] in Hn. apply rmap_ok in Hn as (s & Hs & E). injection E as ->. rewrite Hs. cbn [bind]. rewrite (HB _ F). cbn [bind]. exact H.
Qed.
Print Assumptions C71_internally_tagged_sequence.
Example C71_sequence_example : de_internally_tagged (T := unit) (s2l "t") (fun n k => Ok (n, k)) (SrcValue (unnamed_composite [vstring (s2l "A"); vbool true])) = Ok (s2l "A", KSeq [KBool true]).
Proof. reflexivity. Qed.
