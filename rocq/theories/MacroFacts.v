(** * MacroFacts: the rules of [value!] against the grammar of Spec_Macro. *)
From Verif Require Import Base Value Macro Spec_Macro.
From Coq Require Import Lia.

(** Splitting a form off the front. *)
Definition split_form (ts : list tok) : option (list tok * list tok) :=
  match ts with
  | TGroup Paren a :: r => Some ([TGroup Paren a], r)
  | TGroup Brace a :: r => Some ([TGroup Brace a], r)
  | TIdent n :: TGroup Paren a :: r => Some ([TIdent n; TGroup Paren a], r)
  | TIdent n :: TGroup Brace a :: r => Some ([TIdent n; TGroup Brace a], r)
  | _ => None
  end.

Lemma is_form_cases ts : is_form ts ->
  exists l, ts = [TGroup Paren l] \/ ts = [TGroup Brace l] \/
    (exists n, ts = [TIdent n; TGroup Paren l]) \/ (exists n, ts = [TIdent n; TGroup Brace l]).
Proof.
  intros (d & l & [->| ->] & [->|[n ->]]); exists l; eauto 6.
Qed.

Lemma split_form_app pre r : is_form pre -> split_form (pre ++ r) = Some (pre, r).
Proof.
  intros H. destruct (is_form_cases _ H) as (l & [->|[->|[[n ->]|[n ->]]]]); reflexivity.
Qed.

Lemma split_form_some ts pre r : split_form ts = Some (pre, r) -> ts = pre ++ r /\ is_form pre.
Proof.
  destruct ts as [|t ts]; [discriminate|].
  destruct t as [n| | |n|d l]; try discriminate.
  - destruct ts as [|t2 ts]; [discriminate|].
    destruct t2 as [n2| | |n2|d l]; try discriminate.
    destruct d; try discriminate; cbn [split_form]; intros [= <- <-]; (split; [reflexivity|]);
      (exists Paren, l + exists Brace, l); (split; [tauto|]); right; exists n; reflexivity.
  - destruct d; try discriminate; cbn [split_form]; intros [= <- <-]; (split; [reflexivity|]);
      (exists Paren, l + exists Brace, l); (split; [tauto|]); left; reflexivity.
Qed.

Lemma split_form_none ts : split_form ts = None -> ~ starts_with_form ts.
Proof.
  intros H (pre & rest & -> & Hf). rewrite split_form_app in H by exact Hf. discriminate.
Qed.

Lemma no_form_split ts : ~ starts_with_form ts -> split_form ts = None.
Proof.
  intros H. destruct (split_form ts) as [[pre r]|] eqn:E; [|reflexivity].
  apply split_form_some in E as [-> Hf]. exfalso. apply H. exists pre, r. auto.
Qed.

Lemma is_form_starts ts : is_form ts -> starts_with_form ts.
Proof. intros H. exists ts, []. rewrite app_nil_r. auto. Qed.

Lemma starts_app ts r : starts_with_form ts -> starts_with_form (ts ++ r).
Proof. intros (p & q & -> & H). exists p, (q ++ r). rewrite app_assoc. auto. Qed.

(** A separator does not turn an expression into a form. *)
Lemma split_form_sep ts t r : (t = TComma \/ t = TColon) -> ts <> [] -> split_form ts = None -> split_form (ts ++ t :: r) = None.
Proof.
  intros Ht Hn H. destruct ts as [|a ts]; [congruence|]. cbn [app].
  destruct a as [n| | |n|d l]; try reflexivity.
  - destruct ts as [|b ts].
    + cbn [app]. destruct Ht as [-> | ->]; reflexivity.
    + destruct b as [n2| | |n2|d l]; try reflexivity. destruct d; try reflexivity; discriminate.
  - destruct d; try reflexivity; discriminate.
Qed.

Section Facts.
  Context {E : Type} (P : list tok -> eparse E) (from : E -> value unit) (key_name : E -> str).


  Lemma unnamed_step f acc inner : Macro.unnamed_rules P (S f) acc inner =
    match inner with
    | [] => Some acc
    | _ =>
        match split_form inner with
        | Some (pre, r) => after_value (Macro.unnamed_rules P f) Some acc (EMac pre) r
        | None =>
            match P inner with
            | POk e [] => Some (acc ++ [EUser e])
            | POk e (TComma :: r) => after_value (Macro.unnamed_rules P f) Some acc (EUser e) (TComma :: r)
            | _ => None
            end
        end
    end.
  Proof.
    destruct inner as [|t ts]; [reflexivity|].
    destruct t as [n| | |n|d l]; try reflexivity.
    - destruct ts as [|t2 ts]; [reflexivity|].
      destruct t2 as [n2| | |n2|d l]; try reflexivity.
      destruct d; reflexivity.
    - destruct d; reflexivity.
  Qed.

  Lemma value_rules_step {A} (next : mexpr -> list tok -> option A) r : value_rules P next r =
    match split_form r with
    | Some (pre, r') => Some (next (EMac pre) r')
    | None =>
        match P r with
        | PFatal => Some None
        | POk e (TComma :: r') => Some (next (EUser e) (TComma :: r'))
        | POk e [] => Some (next (EUser e) [])
        | _ => match r with [] => Some None | _ :: _ => None end
        end
    end.
  Proof.
    destruct r as [|t ts]; [reflexivity|].
    destruct t as [n| | |n|d l]; try reflexivity.
    - destruct ts as [|t2 ts]; [reflexivity|].
      destruct t2 as [n2| | |n2|d l]; try reflexivity.
      destruct d; reflexivity.
    - destruct d; reflexivity.
  Qed.

  Lemma expand_step f ts : Macro.expand P from key_name (S f) ts =
    match ts with
    | [] => Some (unnamed_composite [])
    | [TGroup Paren []] => Some (unnamed_composite [])
    | [TGroup Brace []] => Some (named_composite [])
    | [TGroup Brace l] => option_map named_composite (obind (Macro.named_rules P key_name f [] [] l) (entries_with from (Macro.expand P from key_name f)))
    | [TIdent n; TGroup Brace l] => option_map (named_variant n) (obind (Macro.named_rules P key_name f [] [] l) (entries_with from (Macro.expand P from key_name f)))
    | [TGroup Paren l] => option_map unnamed_composite (obind (Macro.unnamed_rules P f [] l) (values_with from (Macro.expand P from key_name f)))
    | [TIdent n; TGroup Paren l] => option_map (unnamed_variant n) (obind (Macro.unnamed_rules P f [] l) (values_with from (Macro.expand P from key_name f)))
    | _ => match P ts with POk e [] => Some (from e) | _ => None end
    end.
  Proof. reflexivity. Qed.

  (** ** More fuel changes nothing *)
  Lemma after_value_mono (k k' : list mexpr -> list tok -> option (list (mexpr (E := E)))) acc v rest out :
    (forall a r o, k a r = Some o -> k' a r = Some o) ->
    after_value k Some acc v rest = Some out -> after_value k' Some acc v rest = Some out.
  Proof.
    intros H. unfold after_value. destruct rest as [|t r]; [auto|]. destruct t; auto.
  Qed.

  Lemma unnamed_mono f g acc inner out : (f <= g)%nat ->
    Macro.unnamed_rules P f acc inner = Some out -> Macro.unnamed_rules P g acc inner = Some out.
  Proof.
    clear. revert g acc inner out. induction f as [|f IH]; intros g acc inner out Hle H; [discriminate|].
    destruct g as [|g]; [lia|]. rewrite unnamed_step in *.
    destruct inner as [|t ts]; [exact H|].
    destruct (split_form (t :: ts)) as [[pre r]|].
    - eapply after_value_mono; [|exact H]. intros a r0 o Ho. apply (IH g); [lia|exact Ho].
    - destruct (P (t :: ts)) as [| |e [|u r]]; try exact H.
      destruct u; try exact H.
      eapply after_value_mono; [|exact H]. intros a r0 o Ho. apply (IH g); [lia|exact Ho].
  Qed.

  Lemma after_entry_mono (k k' : list (str * mexpr) -> list tok -> option (list (str * mexpr (E := E)))) acc key v rest out :
    (forall a r o, k a r = Some o -> k' a r = Some o) ->
    after_entry key_name k Some acc key v rest = Some out -> after_entry key_name k' Some acc key v rest = Some out.
  Proof.
    intros H. unfold after_entry. destruct rest as [|t r]; [auto|]. destruct t; auto.
  Qed.

  Lemma value_rules_mono {A} (next next' : mexpr -> list tok -> option A) r x :
    (forall v r' o, next v r' = Some o -> next' v r' = Some o) ->
    value_rules P next r = Some (Some x) -> value_rules P next' r = Some (Some x).
  Proof.
    intros H. rewrite !value_rules_step. destruct (split_form r) as [[pre r']|].
    - intros [= Hn]. rewrite (H _ _ _ Hn). reflexivity.
    - destruct (P r) as [| |e [|u r']]; try (destruct r; discriminate); try discriminate.
      + intros [= Hn]. rewrite (H _ _ _ Hn). reflexivity.
      + destruct u; try (destruct r; discriminate). intros [= Hn]. rewrite (H _ _ _ Hn). reflexivity.
  Qed.

  Lemma value_rules_none {A} (next next' : mexpr -> list tok -> option A) r :
    value_rules P next r = None -> value_rules P next' r = None.
  Proof.
    rewrite !value_rules_step. destruct (split_form r) as [[pre r']|]; [discriminate|].
    destruct (P r) as [| |e [|u r']]; try (destruct r; (discriminate || reflexivity)); try discriminate.
    destruct u; try discriminate; try (destruct r; (discriminate || reflexivity)).
  Qed.

  Definition others (f : nat) (acc : list (str * mexpr (E := E))) (partial rest : list tok) : option (list (str * mexpr)) :=
    match partial, rest with
    | [], TColon :: _ => None
    | _, TComma :: _ => None
    | [], TGroup Paren k :: TColon :: r =>
        match P k with
        | PFatal => None
        | POk key [] =>
            match value_rules P (after_entry key_name (fun a r => Macro.named_rules P key_name f a [] r) Some acc key) r with
            | Some x => x
            | None => None
            end
        | _ => Macro.named_rules P key_name f acc [TGroup Paren k] (TColon :: r)
        end
    | _, t :: r => Macro.named_rules P key_name f acc (partial ++ [t]) r
    | _, [] => None
    end.

  Lemma named_step f acc partial rest : Macro.named_rules P key_name (S f) acc partial rest =
    match partial, rest with
    | [], [] => Some acc
    | [], _ => others f acc partial rest
    | _ :: _, _ =>
        match P partial with
        | PFatal => None
        | POk key [] =>
            match rest with
            | TColon :: r =>
                match value_rules P (after_entry key_name (fun a r => Macro.named_rules P key_name f a [] r) Some acc key) r with
                | Some x => x
                | None => others f acc partial rest
                end
            | [] => None
            | _ => others f acc partial rest
            end
        | _ => others f acc partial rest
        end
    end.
  Proof. reflexivity. Qed.

  Lemma others_mono f g acc partial rest out :
    (forall a p r o, Macro.named_rules P key_name f a p r = Some o -> Macro.named_rules P key_name g a p r = Some o) ->
    others f acc partial rest = Some out -> others g acc partial rest = Some out.
  Proof.
    intros H. unfold others. destruct partial as [|p ps].
    - destruct rest as [|t r]; [discriminate|].
      destruct t as [n| | |n|d l]; try discriminate; try apply H.
      destruct d; try apply H.
      destruct r as [|u r]; [apply H|]. destruct u; try apply H.
      destruct (P l) as [| |key [|w ws]]; try discriminate; try apply H.
      destruct (value_rules P _ r) as [[x|]|] eqn:EV; try discriminate.
      intros [= <-]. erewrite value_rules_mono; [reflexivity| |exact EV].
      intros v r' o Ho. eapply after_entry_mono; [|exact Ho]. intros a r0 o0. apply H.
    - destruct rest as [|t r]; [discriminate|].
      destruct t as [n| | |n|d l]; try discriminate; apply H.
  Qed.

  Lemma named_mono f g acc partial rest out : (f <= g)%nat ->
    Macro.named_rules P key_name f acc partial rest = Some out -> Macro.named_rules P key_name g acc partial rest = Some out.
  Proof.
    clear from. revert g acc partial rest out. induction f as [|f IH]; intros g acc partial rest out Hle H; [discriminate|].
    destruct g as [|g]; [lia|].
    assert (HO : forall a p r o, others f a p r = Some o -> others g a p r = Some o).
    { intros a p r o. apply others_mono. intros a' p' r' o'. apply IH. lia. }
    rewrite named_step in *.
    destruct partial as [|p ps].
    - destruct rest as [|t r]; [exact H|]. apply HO, H.
    - destruct (P (p :: ps)) as [| |key [|w ws]]; try discriminate; try (apply HO, H).
      destruct rest as [|t r]; [exact H|].
      destruct t; try (apply HO, H).
      destruct (value_rules P (after_entry key_name (fun a r => Macro.named_rules P key_name f a [] r) Some acc key) r) as [[x|]|] eqn:EV;
        try discriminate.
      + erewrite value_rules_mono; [exact H| |exact EV].
        intros v r' o Ho. eapply after_entry_mono; [|exact Ho]. intros a r0 o0. apply IH. lia.
      + erewrite value_rules_none by exact EV. apply HO, H.
  Qed.

  Lemma values_with_mono (ex ex' : list tok -> option (value unit)) l vs :
    (forall ts v, ex ts = Some v -> ex' ts = Some v) -> values_with from ex l = Some vs -> values_with from ex' l = Some vs.
  Proof.
    intros H. revert vs. induction l as [|m l IH]; intros vs; cbn [values_with]; [auto|].
    destruct (match m with EMac ts => ex ts | EUser e => Some (from e) end) as [x|] eqn:E1; [|discriminate].
    destruct (values_with from ex l) as [r|]; [|discriminate].
    intros [= <-]. rewrite (IH r eq_refl).
    destruct m as [ts|e]; [rewrite (H _ _ E1)|injection E1 as ->]; reflexivity.
  Qed.

  Lemma entries_with_mono (ex ex' : list tok -> option (value unit)) l vs :
    (forall ts v, ex ts = Some v -> ex' ts = Some v) -> entries_with from ex l = Some vs -> entries_with from ex' l = Some vs.
  Proof.
    intros H. revert vs. induction l as [|[k m] l IH]; intros vs; cbn [entries_with]; [auto|].
    destruct (match m with EMac ts => ex ts | EUser e => Some (from e) end) as [x|] eqn:E1; [|discriminate].
    destruct (entries_with from ex l) as [r|]; [|discriminate].
    intros [= <-]. rewrite (IH r eq_refl).
    destruct m as [ts|e]; [rewrite (H _ _ E1)|injection E1 as ->]; reflexivity.
  Qed.

  Lemma expand_cases ts : is_form ts \/ ts = [] \/ (~ is_form ts /\ ts <> []).
  Proof.
    destruct ts as [|t ts]; [tauto|].
    destruct (split_form (t :: ts)) as [[pre [|u r]]|] eqn:Es.
    - apply split_form_some in Es as [-> Hf]. rewrite app_nil_r. auto.
    - right; right. split; [|discriminate]. intros Hf. pose proof (split_form_app _ [] Hf) as H. rewrite app_nil_r in H.
      rewrite H in Es. discriminate.
    - right; right. split; [|discriminate]. intros Hf. apply (split_form_none _ Es), is_form_starts, Hf.
  Qed.

  (** One step of [expand], by the shape of the tokens. *)
  Lemma expand_nil f : Macro.expand P from key_name (S f) [] = Some (unnamed_composite []).
  Proof. reflexivity. Qed.
  Lemma expand_expr f ts : ~ is_form ts -> ts <> [] ->
    Macro.expand P from key_name (S f) ts = match P ts with POk e [] => Some (from e) | _ => None end.
  Proof.
    intros Hf Hn. rewrite expand_step.
    destruct ts as [|t ts]; [congruence|].
    destruct t as [n| | |n|d l]; try reflexivity.
    - destruct ts as [|t2 ts]; [reflexivity|].
      destruct t2 as [n2| | |n2|d l]; try reflexivity.
      destruct ts as [|t3 ts].
      + destruct d; try reflexivity; exfalso; apply Hf.
        * exists Paren, l; split; [tauto|right; eauto].
        * exists Brace, l; split; [tauto|right; eauto].
      + destruct d; reflexivity.
    - destruct ts as [|t2 ts].
      + destruct d; try reflexivity; exfalso; apply Hf.
        * exists Paren, l; split; [tauto|left; eauto].
        * exists Brace, l; split; [tauto|left; eauto].
      + destruct d; destruct l; reflexivity.
  Qed.
  Lemma expand_paren f l : Macro.expand P from key_name (S (S f)) [TGroup Paren l] =
    option_map unnamed_composite (obind (Macro.unnamed_rules P (S f) [] l) (values_with from (Macro.expand P from key_name (S f)))).
  Proof. rewrite expand_step. destruct l; reflexivity. Qed.
  Lemma expand_brace f l : Macro.expand P from key_name (S (S f)) [TGroup Brace l] =
    option_map named_composite (obind (Macro.named_rules P key_name (S f) [] [] l) (entries_with from (Macro.expand P from key_name (S f)))).
  Proof. rewrite expand_step. destruct l; reflexivity. Qed.
  Lemma expand_vparen f n l : Macro.expand P from key_name (S f) [TIdent n; TGroup Paren l] =
    option_map (unnamed_variant n) (obind (Macro.unnamed_rules P f [] l) (values_with from (Macro.expand P from key_name f))).
  Proof. reflexivity. Qed.
  Lemma expand_vbrace f n l : Macro.expand P from key_name (S f) [TIdent n; TGroup Brace l] =
    option_map (named_variant n) (obind (Macro.named_rules P key_name f [] [] l) (entries_with from (Macro.expand P from key_name f))).
  Proof. reflexivity. Qed.

  Lemma expand_mono f g ts v : (f <= g)%nat ->
    Macro.expand P from key_name f ts = Some v -> Macro.expand P from key_name g ts = Some v.
  Proof.
    revert g ts v. induction f as [|f IH]; intros g ts v Hle H; [discriminate|].
    destruct g as [|g]; [lia|].
    assert (IHg : forall ts v, Macro.expand P from key_name f ts = Some v -> Macro.expand P from key_name g ts = Some v).
    { intros ts' v'. apply IH. lia. }
    assert (HU : forall (w : list (value unit) -> value unit) l,
      option_map w (obind (Macro.unnamed_rules P f [] l) (values_with from (Macro.expand P from key_name f))) = Some v ->
      option_map w (obind (Macro.unnamed_rules P g [] l) (values_with from (Macro.expand P from key_name g))) = Some v).
    { intros w l. destruct (Macro.unnamed_rules P f [] l) as [ms|] eqn:EU; [|discriminate].
      rewrite (unnamed_mono f g _ _ _ ltac:(lia) EU). cbn [obind].
      destruct (values_with from (Macro.expand P from key_name f) ms) as [vs|] eqn:EVs; [|discriminate].
      rewrite (values_with_mono _ _ _ _ IHg EVs). auto. }
    assert (HN : forall (w : list (str * value unit) -> value unit) l,
      option_map w (obind (Macro.named_rules P key_name f [] [] l) (entries_with from (Macro.expand P from key_name f))) = Some v ->
      option_map w (obind (Macro.named_rules P key_name g [] [] l) (entries_with from (Macro.expand P from key_name g))) = Some v).
    { intros w l. destruct (Macro.named_rules P key_name f [] [] l) as [ms|] eqn:EU; [|discriminate].
      rewrite (named_mono f g _ _ _ _ ltac:(lia) EU). cbn [obind].
      destruct (entries_with from (Macro.expand P from key_name f) ms) as [vs|] eqn:EVs; [|discriminate].
      rewrite (entries_with_mono _ _ _ _ IHg EVs). auto. }
    destruct (expand_cases ts) as [Hf|[->|[Hf Hn]]].
    - destruct (is_form_cases _ Hf) as (l & [->|[->|[[n ->]|[n ->]]]]); rewrite expand_step in *;
        try (destruct l; [exact H|]); auto.
    - exact H.
    - rewrite expand_expr in * by assumption. exact H.
  Qed.

  Lemma value_macro_iff ts v : value_macro P from key_name ts v <-> exists f, Macro.expand P from key_name f ts = Some v.
  Proof.
    split.
    - intros [n H]. exists n. apply H. lia.
    - intros [n H]. exists n. intros f Hf. apply (expand_mono n); assumption.
  Qed.
End Facts.
