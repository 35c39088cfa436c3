(** * Props_Content: C71, types that serde reads through a buffer (untagged and tagged enums, flattened structs) *)
From Verif Require Import Base Value Spec_Value Serde SerdeFacts Spec_Serde SerdeTargets SerdeContent Spec_Content SerdeContentFacts.

(** A value can be buffered exactly if it has no integer of up to 128 bits and no variant in it; the buffer then holds it
    unchanged. *)
Theorem C71_buffered : forall (T : Type) (v : value T),
  ((exists k, buffer (SrcValue v) = Ok k) <-> no_numbers_or_variants v) /\
  (no_numbers_or_variants v -> buffer (SrcValue v) = Ok (content_of v)).
Proof.
  intros T v. split; [|apply buffer_ok]. split.
  - intros [k H]. destruct (buffer_value v) as [[N _]|[_ [e E]]]; [exact N|congruence].
  - intro N. exists (content_of v). now apply buffer_ok.
Qed.
Print Assumptions C71_buffered.

(** Untagged enums: whatever the variants are, nothing with a number or a variant in it can be read. *)
Theorem C71_untagged_refuted : forall (T A : Type) (alts : list (content -> result A derr)) (v : value T),
  ~ no_numbers_or_variants v -> exists e, de_untagged alts (SrcValue v) = Err e.
Proof. intros T A alts v N. destruct (buffer_err v N) as [e E]. exists e. unfold de_untagged. now rewrite E. Qed.
Print Assumptions C71_untagged_refuted.

(** ... although such an enum is written as just its content, e.g. a number. *)
Theorem C71_untagged_number_refuted : forall (A : Type) (alts : list (content -> result A derr)) sg w z v,
  to_value_sd (SInt sg w z) = Ok v -> exists e, de_untagged alts (SrcValue v) = Err e.
Proof.
  intros A alts sg w z v H. apply C71_untagged_refuted. intro N. specialize (N [] v eq_refl). destruct sg; cbn [to_value_sd] in H; injection H as <-; exact N.
Qed.
Print Assumptions C71_untagged_number_refuted.

(** All other values reach the variants as they are. *)
Theorem C71_untagged : forall (T A : Type) (alts : list (content -> result A derr)) (v : value T), no_numbers_or_variants v ->
  de_untagged alts (SrcValue v) = first_that_reads alts (content_of v).
Proof. intros T A alts v N. unfold de_untagged. now rewrite (buffer_ok v N). Qed.
Print Assumptions C71_untagged.

(** ... and the first variant that can be read from it is the one. *)
Theorem C71_untagged_first : forall (T A : Type) (alts : list (content -> result A derr)) (v : value T) x, no_numbers_or_variants v ->
  de_untagged alts (SrcValue v) = Ok x <->
  exists before f after, alts = before ++ f :: after /\ f (content_of v) = Ok x /\ Forall (fun g => exists e, g (content_of v) = Err e) before.
Proof.
  intros T A alts v x N. rewrite C71_untagged by exact N. generalize (content_of v). intro k. induction alts as [|f alts IH]; cbn [first_that_reads].
  - split; [discriminate|]. intros ([|? ?] & g & a & E & _); discriminate E.
  - destruct (f k) as [y|e] eqn:E.
    + split.
      * intro H. injection H as ->. exists [], f, alts. repeat split; [exact E|constructor].
      * intros ([|g b] & g' & a & EA & H & F); cbn [app] in EA; injection EA as <- ->; [congruence|]. inversion F as [|? ? [e He] _]; subst. congruence.
    + rewrite IH. split.
      * intros (b & g & a & -> & H & F). exists (f :: b), g, a. repeat split; [exact H|]. constructor; [now exists e|exact F].
      * intros ([|g b] & g' & a & EA & H & F); cbn [app] in EA; injection EA as <- ->; [congruence|]. inversion F; subst. now exists b, g', a.
Qed.
Print Assumptions C71_untagged_first.

(** Internally tagged enums: the fields beside the tag must be free of numbers and variants; then the tag picks the body
    and the order does not matter. *)
Theorem C71_internally_tagged_refuted : forall (T A : Type) tag (body : str -> content -> result A derr) (l : list (str * value T)) ctx x,
  de_internally_tagged tag body (SrcValue (Val (DComposite (Named l)) ctx)) = Ok x ->
  Forall (fun kv => fst kv = tag \/ no_numbers_or_variants (snd kv)) l.
Proof.
  intros T A tag body l ctx x H. unfold de_internally_tagged in H. cbn [deserialize vdef_of vdef_de composite_de composite_any bind] in H. fold (srcs l) in H.
  apply bind_ok in H as (r & H & _). eapply split_tag_buffered. exact H.
Qed.
Print Assumptions C71_internally_tagged_refuted.

Theorem C71_internally_tagged : forall (T A : Type) tag (body : str -> content -> result A derr) (l1 l2 : list (str * value T)) n v ctx,
  ~ In tag (map fst (l1 ++ l2)) -> from_value TyString v = Ok (XString n) -> Forall (fun kv => no_numbers_or_variants (snd kv)) (l1 ++ l2) ->
  de_internally_tagged tag body (SrcValue (Val (DComposite (Named (l1 ++ (tag, v) :: l2))) ctx)) =
  body n (KMap (map (fun kv => (fst kv, content_of (snd kv))) (l1 ++ l2))).
Proof.
  intros T A tag body l1 l2 n v ctx N HN F. unfold de_internally_tagged. cbn [deserialize vdef_of vdef_de composite_de composite_any bind]. fold (srcs (l1 ++ (tag, v) :: l2)).
  rewrite map_app in N. rewrite (split_tag_app tag l1 l2 n v); [reflexivity| | | |exact F].
  - intro I. apply N. apply in_or_app. now left.
  - intro I. apply N. apply in_or_app. now right.
  - unfold from_value in HN. cbn [de] in HN. apply rmap_ok in HN as (s & H & E). now injection E as ->.
Qed.
Print Assumptions C71_internally_tagged.

(** Adjacently tagged enums, complete: among the entries named like the tag or the content there is the tag alone, or the tag
    and then the content, which is read like any other value, or the content and then the tag, and then the content is
    buffered, so that numbers and variants in it are an error.  All other entries are ignored, whatever they hold. *)
Theorem C71_adjacently_tagged : forall (T A : Type) read_tag tag cont (direct : str -> source T -> result A derr) (buffered : str -> content -> result A derr) absent
    (l : list (str * value T)) ctx x, tag <> cont ->
  let relevant := filter (fun kv => str_eqb (fst kv) tag || str_eqb (fst kv) cont) l in
  de_adjacently_tagged read_tag tag cont direct buffered absent (SrcValue (Val (DComposite (Named l)) ctx)) = Ok x <->
  (exists vt n, relevant = [(tag, vt)] /\ read_tag (SrcValue vt) = Ok n /\ absent n = Ok x) \/
  (exists vt vc n, relevant = [(tag, vt); (cont, vc)] /\ read_tag (SrcValue vt) = Ok n /\ direct n (SrcValue vc) = Ok x) \/
  (exists vt vc n, relevant = [(cont, vc); (tag, vt)] /\ no_numbers_or_variants vc /\ read_tag (SrcValue vt) = Ok n /\ buffered n (content_of vc) = Ok x).
Proof.
  intros T A read_tag tag cont direct buffered absent l ctx x NE. cbv zeta.
  change (fun kv : str * value T => str_eqb (fst kv) tag || str_eqb (fst kv) cont) with (is_either tag cont (B := value T)).
  unfold de_adjacently_tagged. cbn [deserialize vdef_of vdef_de vdef_any composite_any bind]. fold (srcs l).
  destruct (next_relevant_spec tag cont l) as [[F E]|[(v & l' & F & E)|(v & l' & _ & F & E)]]; rewrite E, F; cbn [bind].
  - split; [intro H; discriminate H|]. intros [(vt & n & H & _)|[(vt & vc & n & H & _)|(vt & vc & n & H & _)]]; discriminate H.
  - split.
    + intro H. apply bind_ok in H as (n & HN & H).
      destruct (next_relevant_spec tag cont l') as [[F2 E2]|[(v2 & l2 & F2 & E2)|(v2 & l2 & _ & F2 & E2)]]; rewrite E2 in H; cbn [bind] in H.
      * left. exists v, n. rewrite F2. now repeat split.
      * discriminate H.
      * apply bind_ok in H as (y & HD & H). apply at_end_spec in H as [F3 ->]. right. left. exists v, v2, n. rewrite F2, F3. now repeat split.
    + intros [(vt & n & H & HN & HA)|[(vt & vc & n & H & HN & HD)|(vt & vc & n & H & _)]]; [| |injection H; congruence].
      * injection H as -> F2. rewrite HN. cbn [bind]. destruct (next_relevant_spec tag cont l') as [[_ E2]|[(v2 & l2 & F2' & _)|(v2 & l2 & _ & F2' & _)]]; [|congruence|congruence].
        rewrite E2. exact HA.
      * injection H as -> F2. rewrite HN. cbn [bind]. destruct (next_relevant_spec tag cont l') as [[F2' _]|[(v2 & l2 & F2' & _)|(v2 & l2 & _ & F2' & E2)]]; [congruence|rewrite F2 in F2'; injection F2'; congruence|].
        rewrite F2 in F2'. injection F2' as <- F3. rewrite E2. cbn [bind]. rewrite HD. cbn [bind]. apply at_end_spec. now split.
  - split.
    + intro H. apply bind_ok in H as (c & HB & H).
      assert (HC : no_numbers_or_variants v /\ c = content_of v).
      { destruct (buffer_value v) as [[N Q]|[_ [e Q]]]; [|congruence]. split; [exact N|congruence]. }
      destruct HC as [HC ->].
      destruct (next_relevant_spec tag cont l') as [[F2 E2]|[(v2 & l2 & F2 & E2)|(v2 & l2 & _ & F2 & E2)]]; rewrite E2 in H; cbn [bind] in H; [discriminate H| |discriminate H].
      apply bind_ok in H as (n & HN & H). apply bind_ok in H as (y & HD & H). apply at_end_spec in H as [F3 ->].
      right. right. exists v2, v, n. rewrite F2, F3. now repeat split.
    + intros [(vt & n & H & _)|[(vt & vc & n & H & _)|(vt & vc & n & H & HC & HN & HD)]]; [injection H; congruence|injection H; congruence|].
      injection H as -> F2. rewrite (buffer_ok vc HC). cbn [bind].
      destruct (next_relevant_spec tag cont l') as [[F2' _]|[(v2 & l2 & F2' & E2)|(v2 & l2 & _ & F2' & _)]]; [congruence| |rewrite F2 in F2'; injection F2'; congruence].
      rewrite F2 in F2'. injection F2' as <- F3. rewrite E2. cbn [bind]. rewrite HN. cbn [bind]. rewrite HD. cbn [bind]. apply at_end_spec. now split.
Qed.
Print Assumptions C71_adjacently_tagged.

(** From an unnamed composite the first value is the tag and the second the content; further values are ignored. *)
Theorem C71_adjacently_tagged_unnamed : forall (T A : Type) read_tag tag cont (direct : str -> source T -> result A derr) (buffered : str -> content -> result A derr) absent
    (l : list (value T)) ctx x,
  de_adjacently_tagged read_tag tag cont direct buffered absent (SrcValue (Val (DComposite (Unnamed l)) ctx)) = Ok x <->
  exists vt vc rest n, l = vt :: vc :: rest /\ read_tag (SrcValue vt) = Ok n /\ direct n (SrcValue vc) = Ok x.
Proof.
  intros T A read_tag tag cont direct buffered absent l ctx x. unfold de_adjacently_tagged. cbn [deserialize vdef_of vdef_de vdef_any composite_any bind].
  split.
  - destruct l as [|vt [|vc rest]]; cbn [map andb]; try discriminate. intro H. apply bind_ok in H as (n & HN & H). apply bind_ok in H as (y & HD & H).
    injection H as ->. exists vt, vc, rest, n. now repeat split.
  - intros (vt & vc & rest & n & -> & HN & HD). cbn [map andb]. rewrite HN. cbn [bind]. rewrite HD. reflexivity.
Qed.
Print Assumptions C71_adjacently_tagged_unnamed.

(** So the order of the two fields matters. *)
Theorem C71_adjacently_tagged_order_refuted : forall (T A : Type) (read_tag : source T -> result str derr) tag cont (direct : str -> source T -> result A derr) (buffered : str -> content -> result A derr) absent
    (vt vc : value T) n ctx, tag <> cont -> read_tag (SrcValue vt) = Ok n ->
  let reads fields := de_adjacently_tagged read_tag tag cont direct buffered absent (SrcValue (Val (DComposite (Named fields)) ctx)) in
  (forall x, reads [(tag, vt); (cont, vc)] = Ok x <-> direct n (SrcValue vc) = Ok x) /\
  (forall x, reads [(cont, vc); (tag, vt)] = Ok x <-> no_numbers_or_variants vc /\ buffered n (content_of vc) = Ok x) /\
  (~ no_numbers_or_variants vc -> exists e, reads [(cont, vc); (tag, vt)] = Err e).
Proof.
  intros T A read_tag tag cont direct buffered absent vt vc n ctx NE HN. cbv zeta.
  assert (E1 : str_eqb cont tag = false) by (apply str_eqb_neq; congruence).
  assert (P2 : forall x, de_adjacently_tagged read_tag tag cont direct buffered absent (SrcValue (Val (DComposite (Named [(cont, vc); (tag, vt)])) ctx)) = Ok x <->
     no_numbers_or_variants vc /\ buffered n (content_of vc) = Ok x).
  { intro x. rewrite (C71_adjacently_tagged T A read_tag tag cont direct buffered absent _ ctx x NE). cbv zeta.
    cbn [filter fst]. rewrite !str_eqb_refl, E1. cbn [orb]. split.
    - intros [(vt' & n' & H & _)|[(vt' & vc' & n' & H & _)|(vt' & vc' & n' & H & HC & HN' & HD)]]; [discriminate H|injection H; congruence|].
      injection H as <- <-. rewrite HN in HN'. injection HN' as <-. now split.
    - intros [HC HD]. right. right. exists vt, vc, n. now repeat split. }
  split; [|split; [exact P2|]].
  - intro x. rewrite (C71_adjacently_tagged T A read_tag tag cont direct buffered absent _ ctx x NE). cbv zeta.
    cbn [filter fst]. rewrite !str_eqb_refl, E1. cbn [orb]. split.
    + intros [(vt' & n' & H & _)|[(vt' & vc' & n' & H & HN' & HD)|(vt' & vc' & n' & H & _)]]; [discriminate H| |injection H; congruence].
      injection H as <- <-. rewrite HN in HN'. injection HN' as <-. exact HD.
    + intro HD. right. left. exists vt, vc, n. now repeat split.
  - intro NC. destruct (de_adjacently_tagged read_tag tag cont direct buffered absent (SrcValue (Val (DComposite (Named [(cont, vc); (tag, vt)])) ctx))) as [x|e] eqn:E; [|now exists e].
    exfalso. apply NC. now apply (P2 x).
Qed.
Print Assumptions C71_adjacently_tagged_order_refuted.

(** Flattened structs: own fields are read as usual, all others must be free of numbers and variants. *)
Theorem C71_flatten_refuted : forall (T A : Type) own (finish : list (str * data) -> list (str * content) -> result A derr) (l : list (str * value T)) ctx x,
  de_flattened own finish (SrcValue (Val (DComposite (Named l)) ctx)) = Ok x ->
  Forall (fun kv => In (fst kv) (map fst own) \/ no_numbers_or_variants (snd kv)) l.
Proof.
  intros T A own finish l ctx x H. unfold de_flattened in H. cbn [deserialize vdef_of vdef_de composite_de composite_any bind] in H. fold (srcs l) in H.
  apply bind_ok in H as (r & H & _). eapply split_flat_buffered. exact H.
Qed.
Print Assumptions C71_flatten_refuted.

Theorem C71_flatten : forall (T A : Type) (own : list (str * ty)) (finish : list (str * data) -> list (str * content) -> result A derr) (l : list (str * value T)) ctx read,
  let mine := filter (fun kv => existsb (str_eqb (fst kv)) (map fst own)) l in
  let others := filter (fun kv => negb (existsb (str_eqb (fst kv)) (map fst own))) l in
  NoDup (map fst mine) ->
  Forall2 (fun kv r => fst r = fst kv /\ exists t, find_field (fst kv) own = Some t /\ from_value t (snd kv) = Ok (snd r)) mine read ->
  Forall (fun kv => no_numbers_or_variants (snd kv)) others ->
  de_flattened (map (fun nt => (fst nt, de (snd nt))) own) finish (SrcValue (Val (DComposite (Named l)) ctx)) =
  finish read (map (fun kv => (fst kv, content_of (snd kv))) others).
Proof.
  intros T A own finish l ctx read mine others ND F2 FB. unfold de_flattened. cbn [deserialize vdef_of vdef_de composite_de composite_any bind]. fold (srcs l).
  set (own' := map (fun nt : str * ty => (fst nt, de (T := T) (snd nt))) own).
  assert (EK : map fst own' = map fst own) by (unfold own'; rewrite map_map; apply map_ext; reflexivity).
  assert (EM : filter (is_own own') l = mine) by (unfold mine, is_own; now rewrite EK).
  assert (EO : filter (fun kv => negb (is_own own' kv)) l = others) by (unfold others, is_own; now rewrite EK).
  rewrite (split_flat_ok own' l read [] []).
  - cbn [app bind fst snd]. now rewrite EO.
  - cbn [map app]. now rewrite EM.
  - rewrite EM. clear ND EM. induction F2 as [|kv r ml rs (E & t & Ht & Hr) F2 IH]; constructor; [|exact IH]. split; [exact E|]. exists (de t). split; [|exact Hr].
    unfold own'. clear -Ht. induction own as [|[n u] own IHo]; [discriminate Ht|]. cbn [map fst snd find_field] in *. destruct (str_eqb (fst kv) n); [now injection Ht as ->|now apply IHo].
  - now rewrite EO.
Qed.
Print Assumptions C71_flatten.

Example C71_non_vacuous :
  let v := named_composite [(s2l "s", vstring (s2l "x")); (s2l "l", unnamed_composite [vbool true; vchar 97])] in
  let w := named_composite [(s2l "s", vu128 1)] in
  buffer (SrcValue v) = Ok (KMap [(s2l "s", KString (s2l "x")); (s2l "l", KSeq [KBool true; KChar 97])]) /\ no_numbers_or_variants v /\
  buffer (SrcValue w) = Err DType /\ ~ no_numbers_or_variants w /\
  de_flattened [(s2l "s", de (TyInt false 8))] (fun own rest => Ok (own, rest)) (SrcValue (named_composite [(s2l "s", vu128 1); (s2l "b", vbool true)])) =
    Ok ([(s2l "s", XInt 1)], [(s2l "b", KBool true)]) /\
  de_adjacently_tagged de_string (s2l "t") (s2l "c") (fun _ => de (TyInt false 8)) (fun _ _ => Ok XUnit) (fun _ => Ok XUnit) (SrcValue (named_composite [(s2l "t", vstring (s2l "A")); (s2l "c", vu128 1)])) = Ok (XInt 1) /\
  de_adjacently_tagged de_string (s2l "t") (s2l "c") (fun _ => de (TyInt false 8)) (fun _ _ => Ok XUnit) (fun _ => Ok XUnit) (SrcValue (named_composite [(s2l "c", vu128 1); (s2l "t", vstring (s2l "A"))])) = Err DType.
Proof.
  cbv zeta. split; [reflexivity|]. split; [apply C71_buffered; eexists; reflexivity|]. split; [reflexivity|]. split.
  - intro N. apply (N [0%nat] (vu128 1)). reflexivity.
  - repeat split.
Qed.
