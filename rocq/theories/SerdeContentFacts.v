(** * SerdeContentFacts: facts for C71. *)
From Verif Require Import Base Value Spec_Value ValueFacts Serde SerdeFacts Spec_Serde SerdeRt SerdeContent Spec_Content.

Definition buffer_event {T} (rec : source T -> result content derr) (e : event T) : result content derr :=
  match e with
  | VBool b => Ok (KBool b)
  | VInt sg w z => if (w =? 128)%N then Err DType else Ok (KInt sg w z)
  | VChar c => Ok (KChar c)
  | VString s => Ok (KString s)
  | VBytes b => Ok (KBytes b)
  | VNone => Ok KNone
  | VSome s' => rmap KSome (rec s')
  | VUnit => Ok KUnit
  | VSeq _ l => rmap KSeq (mapM rec l)
  | VMap l => rmap KMap (mapM (fun kv => rmap (pair (fst kv)) (rec (snd kv))) l)
  | VEnum _ _ | VEnumOf _ _ => Err DCustom
  | VFloat => Ok KFloat
  end.

Lemma buffer_event_ext {T} (f g : source T -> result content derr) e : (forall s, In s (ev_subs e) -> f s = g s) -> buffer_event f e = buffer_event g e.
Proof.
  intro H. destruct e; try reflexivity; cbn [buffer_event ev_subs] in *.
  - rewrite H by now left. reflexivity.
  - rewrite (mapM_ext f g) by exact H. reflexivity.
  - rewrite (mapM_ext _ (fun kv => rmap (pair (fst kv)) (g (snd kv)))); [reflexivity|]. intros kv I. rewrite H by now apply in_map. reflexivity.
Qed.

Lemma buffer_fuel {T} n : forall m (s : source T), (src_size s < n)%nat -> (src_size s < m)%nat -> buffer_f n s = buffer_f m s.
Proof.
  induction n as [|n IH]; intros m s Hn Hm; [lia|]. destruct m as [|m]; [lia|]. cbn [buffer_f]. rewrite deserialize_any_ok. cbn [bind].
  apply (buffer_event_ext (buffer_f n) (buffer_f m)). intros s' Hs. apply any_subs in Hs. apply IH; lia.
Qed.

Lemma buffer_unfold {T} (s : source T) : buffer s = buffer_event buffer (any_of s).
Proof.
  unfold buffer at 1. cbn [buffer_f]. rewrite deserialize_any_ok. cbn [bind].
  apply (buffer_event_ext (buffer_f (src_size s)) buffer). intros s' Hs. apply any_subs in Hs. unfold buffer. apply buffer_fuel; lia.
Qed.

Lemma no_numbers_node {T} (v : value T) : no_numbers_or_variants v <->
  match v with
  | Val (DPrim (PU128 _)) _ | Val (DPrim (PI128 _)) _ | Val (DVariant _ _) _ => False
  | _ => True
  end /\ Forall no_numbers_or_variants (fields_of v).
Proof.
  unfold no_numbers_or_variants. split.
  - intro H. split; [exact (H [] v eq_refl)|]. apply Forall_forall. intros c Hc p w Hw. apply In_nth_error in Hc as [i Hi]. apply (H (i :: p) w). cbn [node_at]. now rewrite Hi.
  - intros [H1 H2] [|i p] w Hw; cbn [node_at] in Hw; [now injection Hw as <-|].
    destruct (nth_error (fields_of v) i) as [x|] eqn:Ei; [|discriminate]. apply nth_error_In in Ei. rewrite Forall_forall in H2. exact (H2 x Ei p w Hw).
Qed.

Lemma buffer_bools {T} b : buffer (T := T) (SrcBools b) = Ok (KSeq (map KBool b)).
Proof.
  rewrite buffer_unfold. cbn [any_of buffer_event]. rewrite mapM_map, (mapM_total _ KBool); [reflexivity|]. intros x _. now rewrite buffer_unfold.
Qed.

(** The buffer is what the specification says, and there is none if there is a number or variant. *)
Lemma buffer_value {T} (v : value T) :
  (no_numbers_or_variants v /\ buffer (SrcValue v) = Ok (content_of v)) \/ (~ no_numbers_or_variants v /\ exists e, buffer (SrcValue v) = Err e).
Proof.
  induction v as [d ctx IH] using value_ind'. rewrite no_numbers_node, buffer_unfold. destruct d as [[l|l]|n c|b|p]; cbn [children values] in IH; cbn [any_of vdef_of vdef_any composite_any fields_of].
  - cbn [buffer_event content_of]. rewrite mapM_map. cbn [fst snd].
    assert (H : (Forall no_numbers_or_variants (map snd l) /\ mapM (fun x : str * value T => rmap (pair (fst x)) (buffer (SrcValue (snd x)))) l = Ok (map (fun kv => (fst kv, content_of (snd kv))) l)) \/
                (~ Forall no_numbers_or_variants (map snd l) /\ exists e, mapM (fun x : str * value T => rmap (pair (fst x)) (buffer (SrcValue (snd x)))) l = Err e)).
    { clear ctx. induction l as [|[k x] l IHl]; cbn [map fst snd mapM] in *; [left; split; [constructor|reflexivity]|].
      inversion IH as [|? ? HX HL]; subst. destruct HX as [[NX ->]|[NX [e ->]]].
      - cbn [rmap bind]. destruct (IHl HL) as [[NL ->]|[NL [e ->]]].
        + left. split; [now constructor|reflexivity].
        + right. split; [intro F; inversion F; now apply NL|now exists e].
      - right. split; [intro F; inversion F; now apply NX|]. exists e. reflexivity. }
    destruct H as [[F ->]|[F [e ->]]]; [left; split; [now split|reflexivity]|right; split; [now intros [_ G]|now exists e]].
  - cbn [buffer_event content_of]. rewrite mapM_map.
    assert (H : (Forall no_numbers_or_variants l /\ mapM (fun x : value T => buffer (SrcValue x)) l = Ok (map content_of l)) \/
                (~ Forall no_numbers_or_variants l /\ exists e, mapM (fun x : value T => buffer (SrcValue x)) l = Err e)).
    { clear ctx. induction l as [|x l IHl]; cbn [map mapM] in *; [left; split; [constructor|reflexivity]|].
      inversion IH as [|? ? HX HL]; subst. destruct HX as [[NX ->]|[NX [e ->]]].
      - cbn [bind]. destruct (IHl HL) as [[NL ->]|[NL [e ->]]].
        + left. split; [now constructor|reflexivity].
        + right. split; [intro F; inversion F; now apply NL|now exists e].
      - right. split; [intro F; inversion F; now apply NX|]. exists e. reflexivity. }
    destruct H as [[F ->]|[F [e ->]]]; [left; split; [now split|reflexivity]|right; split; [now intros [_ G]|now exists e]].
  - right. split; [now intros [[] _]|]. now exists DCustom.
  - left. split; [split; [exact I|constructor]|]. cbn [bits_map buffer_event mapM fst snd]. rewrite buffer_bools. reflexivity.
  - destruct p as [b|c|s|n|z|b|b]; cbn [prim_any buffer_event]; try (left; split; [split; [exact I|constructor]|reflexivity]).
    + right. split; [now intros [[] _]|]. now exists DType.
    + right. split; [now intros [[] _]|]. now exists DType.
Qed.

Lemma buffer_ok {T} (v : value T) : no_numbers_or_variants v -> buffer (SrcValue v) = Ok (content_of v).
Proof. intro N. destruct (buffer_value v) as [[_ H]|[H _]]; [exact H|now destruct H]. Qed.
Lemma buffer_err {T} (v : value T) : ~ no_numbers_or_variants v -> exists e, buffer (SrcValue v) = Err e.
Proof. intro N. destruct (buffer_value v) as [[H _]|[_ H]]; [now destruct N|exact H]. Qed.

(** ** Splitting *)
Definition srcs {T} (l : list (str * value T)) : list (str * source T) := map (fun kv => (fst kv, SrcValue (snd kv))) l.

Lemma split_tag_buffered {T} tag (l : list (str * value T)) : forall found rest r, split_tag tag (srcs l) found rest = Ok r ->
  Forall (fun kv => fst kv = tag \/ no_numbers_or_variants (snd kv)) l.
Proof.
  induction l as [|[k v] l IH]; intros found rest r H; [constructor|]. cbn [srcs map split_tag fst snd] in H. destruct (str_eqb k tag) eqn:E.
  - destruct found as [n|]; [discriminate H|]. apply bind_ok in H as (n & _ & H). constructor; [left; now apply str_eqb_eq|eapply IH; exact H].
  - apply bind_ok in H as (c & B & H). constructor; [right; cbn [snd]|eapply IH; exact H]. destruct (buffer_value v) as [[N _]|[_ [e Q]]]; [exact N|congruence].
Qed.

Lemma split_tag_rest {T} tag (l : list (str * value T)) : forall found rest, ~ In tag (map fst l) -> Forall (fun kv => no_numbers_or_variants (snd kv)) l ->
  split_tag tag (srcs l) found rest = Ok (found, rest ++ map (fun kv => (fst kv, content_of (snd kv))) l).
Proof.
  induction l as [|[k v] l IH]; intros found rest N F; cbn [srcs map split_tag fst snd].
  - now rewrite app_nil_r.
  - inversion F as [|? ? FV FL]; subst. cbn [snd] in FV. cbn [map fst In] in N. destruct (str_eqb k tag) eqn:E; [apply str_eqb_eq in E; subst; now destruct N; left|].
    rewrite (buffer_ok v FV). cbn [bind]. fold (srcs l). rewrite IH; [now rewrite <- app_assoc|tauto|exact FL].
Qed.

Lemma split_tag_app {T} tag (l1 l2 : list (str * value T)) n v : ~ In tag (map fst l1) -> ~ In tag (map fst l2) -> de_string (SrcValue v) = Ok n ->
  Forall (fun kv => no_numbers_or_variants (snd kv)) (l1 ++ l2) -> forall rest,
  split_tag tag (srcs (l1 ++ (tag, v) :: l2)) None rest = Ok (Some n, rest ++ map (fun kv => (fst kv, content_of (snd kv))) (l1 ++ l2)).
Proof.
  intros N1 N2 HN. induction l1 as [|[k w] l1 IH]; intros F rest; cbn [app srcs map split_tag fst snd].
  - rewrite str_eqb_refl, HN. cbn [bind]. fold (srcs l2). now apply split_tag_rest.
  - cbn [app] in F. inversion F as [|? ? FV FL]; subst. cbn [snd] in FV. cbn [map fst In] in N1. destruct (str_eqb k tag) eqn:E; [apply str_eqb_eq in E; subst; now destruct N1; left|].
    rewrite (buffer_ok w FV). cbn [bind]. fold (srcs (l1 ++ (tag, v) :: l2)). rewrite IH; [now rewrite <- app_assoc|tauto|exact FL].
Qed.

Lemma split_flat_buffered {T} (own : list (str * (source T -> result data derr))) (l : list (str * value T)) : forall acc rest r,
  split_flat own (srcs l) acc rest = Ok r -> Forall (fun kv => In (fst kv) (map fst own) \/ no_numbers_or_variants (snd kv)) l.
Proof.
  induction l as [|[k v] l IH]; intros acc rest r H; [constructor|]. cbn [srcs map split_flat fst snd] in H. destruct (find_field k own) as [f|] eqn:E.
  - destruct (find_field k acc) as [n|]; [discriminate H|]. apply bind_ok in H as (n & _ & H). constructor; [left; cbn [fst]|eapply IH; exact H].
    clear -E. induction own as [|[k' f'] own IHo]; [discriminate E|]. cbn [find_field] in E. cbn [map fst In]. destruct (str_eqb k k') eqn:Q; [left; symmetry; now apply str_eqb_eq|right; now apply IHo].
  - apply bind_ok in H as (c & B & H). constructor; [right; cbn [snd]|eapply IH; exact H]. destruct (buffer_value v) as [[N _]|[_ [e Q]]]; [exact N|congruence].
Qed.

Definition is_own {T A} (own : list (str * A)) (kv : str * value T) : bool := existsb (str_eqb (fst kv)) (map fst own).

Lemma find_field_own {A} k (own : list (str * A)) : (exists f, find_field k own = Some f) <-> existsb (str_eqb k) (map fst own) = true.
Proof.
  induction own as [|[k' f'] own IH]; cbn [find_field map fst existsb]; [split; [intros [f H]; discriminate H|discriminate]|].
  destruct (str_eqb k k'); cbn [orb]; [split; eauto|exact IH].
Qed.
Lemma find_field_none {A} k (own : list (str * A)) : find_field k own = None <-> ~ In k (map fst own).
Proof.
  induction own as [|[k' f'] own IH]; cbn [find_field map fst In]; [tauto|]. destruct (str_eqb k k') eqn:E.
  - apply str_eqb_eq in E. subst. split; [discriminate|]. intro H. destruct H. now left.
  - apply str_eqb_neq in E. rewrite IH. intuition congruence.
Qed.

Lemma split_flat_ok {T} (own : list (str * (source T -> result data derr))) (l : list (str * value T)) : forall read acc rest,
  NoDup (map fst acc ++ map fst (filter (is_own own) l)) ->
  Forall2 (fun kv r => fst r = fst kv /\ exists f, find_field (fst kv) own = Some f /\ f (SrcValue (snd kv)) = Ok (snd r)) (filter (is_own own) l) read ->
  Forall (fun kv => no_numbers_or_variants (snd kv)) (filter (fun kv => negb (is_own own kv)) l) ->
  split_flat own (srcs l) acc rest = Ok (acc ++ read, rest ++ map (fun kv => (fst kv, content_of (snd kv))) (filter (fun kv => negb (is_own own kv)) l)).
Proof.
  induction l as [|[k v] l IH]; intros read acc rest ND F2 FB; cbn [srcs map split_flat fst snd filter] in *.
  - inversion F2; subst. now rewrite !app_nil_r.
  - change (is_own own (k, v)) with (existsb (str_eqb k) (map fst own)) in *. destruct (existsb (str_eqb k) (map fst own)) eqn:E; cbn [negb] in *.
    + inversion F2 as [|? [k' x] ? read' HR F2']; subst. cbn [fst snd] in HR. destruct HR as (-> & f & Hf & Hx). rewrite Hf.
      cbn [map fst] in ND.
      assert (NA : find_field k acc = None).
      { apply find_field_none. intro I. apply NoDup_remove_2 in ND. apply ND. apply in_or_app. now left. }
      rewrite NA, Hx. cbn [bind]. fold (srcs l). rewrite (IH read'); [now rewrite <- app_assoc| |exact F2'|exact FB].
      rewrite map_app. cbn [map fst]. rewrite <- app_assoc. exact ND.
    + assert (NF : find_field k own = None).
      { destruct (find_field k own) as [f|] eqn:Q; [|reflexivity]. assert (X : exists f0, find_field k own = Some f0) by eauto. apply find_field_own in X. congruence. }
      rewrite NF. inversion FB as [|? ? FV FL]; subst. cbn [snd] in FV. rewrite (buffer_ok v FV). cbn [bind]. fold (srcs l). rewrite (IH read); [|exact ND|exact F2|exact FL].
      now rewrite <- app_assoc.
Qed.

(** ** Adjacently tagged enums *)
Definition is_either (tag cont : str) {B} (kv : str * B) : bool := str_eqb (fst kv) tag || str_eqb (fst kv) cont.

Lemma next_relevant_spec {T} tag cont (l : list (str * value T)) :
  (filter (is_either tag cont) l = [] /\ next_relevant tag cont (srcs l) = Ok None) \/
  (exists v l', filter (is_either tag cont) l = (tag, v) :: filter (is_either tag cont) l' /\ next_relevant tag cont (srcs l) = Ok (Some (true, SrcValue v, srcs l'))) \/
  (exists v l', tag <> cont /\ filter (is_either tag cont) l = (cont, v) :: filter (is_either tag cont) l' /\ next_relevant tag cont (srcs l) = Ok (Some (false, SrcValue v, srcs l'))).
Proof.
  induction l as [|[k v] l IH]; [left; split; reflexivity|]. cbn [srcs map next_relevant filter fst snd].
  replace (is_either tag cont (k, v)) with (str_eqb k tag || str_eqb k cont) by reflexivity. destruct (str_eqb k tag) eqn:E.
  - apply str_eqb_eq in E. subst k. cbn [orb]. right. left. exists v, l. split; reflexivity.
  - cbn [orb]. destruct (str_eqb k cont) eqn:E2.
    + apply str_eqb_eq in E2. subst k. right. right. exists v, l. split; [|split; reflexivity]. intro Q. subst. rewrite str_eqb_refl in E. discriminate E.
    + rewrite de_ignored_ok. cbn [bind]. exact IH.
Qed.

Lemma at_end_spec {T A} tag cont (l : list (str * value T)) (x y : A) : at_end tag cont (srcs l) x = Ok y <-> filter (is_either tag cont) l = [] /\ x = y.
Proof.
  unfold at_end. destruct (next_relevant_spec tag cont l) as [[F E]|[(v & l' & F & E)|(v & l' & _ & F & E)]]; rewrite E, F; cbn [bind]; split; intro H;
    try discriminate H; try (destruct H; discriminate); [injection H as ->; now split|now destruct H as [_ ->]].
Qed.
