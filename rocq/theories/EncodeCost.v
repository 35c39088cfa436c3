(** * EncodeCost: the encoder of Encode.v with a counter for the calls of [Value::encode_as_type_to] (encode.rs:28).
    Every definition here is the one of the same name in Encode.v with the counter added; [erase_encode] proves that
    the counter changes nothing. *)
From Verif Require Import Base Value Registry Spec_Scale Scale Encode.
Open Scope N_scope.

(** A result and the number of calls made for it. *)
Definition cres : Type := (eres * N)%type.
Definition free (r : eres) : cres := (r, 0).
Definition plus_calls (n : N) (r : cres) : cres := (fst r, n + snd r).
Definition andthen_c (r : cres) (k : bytes -> cres) : cres :=
  match fst r with (SOk, out) => plus_calls (snd r) (k out) | _ => r end.

Section Cost.
  Context {TId : Type} (reg : TId -> resolution TId) (X : ext) (F : nat).
  Definition encoder_c : Type := TId -> bytes -> cres.

  Fixpoint encode_all_c (es : list encoder_c) (t : TId) (out : bytes) : cres :=
    match es with
    | [] => free (SOk, out)
    | e :: es' => andthen_c (e t out) (fun out' => encode_all_c es' t out')
    end.
  Fixpoint lookup_last_c (name : str) (src : list (option str * encoder_c)) : option encoder_c :=
    match src with
    | [] => None
    | f :: src' => match lookup_last_c name src' with
                   | Some e => Some e
                   | None => if str_eqb (key_of f) name then Some (snd f) else None
                   end
    end.
  Fixpoint encode_by_name_c (src : list (option str * encoder_c)) (fs : list (field TId)) (out : bytes) : cres :=
    match fs with
    | [] => free (SOk, out)
    | fd :: fs' => match lookup_last_c (key_of fd) src with
                   | None => free (SErr XMissingField, out)
                   | Some e => andthen_c (e (snd fd) out) (fun out' => encode_by_name_c src fs' out')
                   end
    end.
  Fixpoint encode_in_order_c (es : list encoder_c) (ts : list TId) (out : bytes) : cres :=
    match es, ts with
    | e :: es', t :: ts' => andthen_c (e t out) (fun out' => encode_in_order_c es' ts' out')
    | _, _ => free (SOk, out)
    end.
  Definition encode_fields_c (src : list (option str * encoder_c)) (fs : list (field TId)) (out : bytes) : cres :=
    if existsb named_field fs && existsb named_field src then encode_by_name_c src fs out
    else if (length fs =? length src)%nat then encode_in_order_c (map snd src) (map snd fs) out
    else free (SErr XWrongLength, out).
  Definition encode_struct_c (src : list (option str * encoder_c)) (t : TId) (out : bytes) : cres :=
    match skip_through reg F t with
    | None => free (SHang, out)
    | Some t1 =>
        match reg t1 with
        | ResErr => free (SErr XTypeResolving, out)
        | ResTy (TComposite fs) => match src with [(None, e)] => e t1 out | _ => encode_fields_c src fs out end
        | ResTy (TTuple ts) => match src with [(_, e)] => e t1 out | _ => encode_fields_c src (map (fun t => (None, t)) ts) out end
        | _ => match src with [(_, e)] => e t1 out | _ => free (SErr XWrongShape, out) end
        end
    end.

  Section Composite.
    Context {T : Type}.
    Local Notation item := (value T * encoder_c)%type.
    Definition do_encode_c (c : composite item) (t : TId) (out : bytes) : cres :=
      match reg t with
      | ResErr => free (SErr XTypeResolving, out)
      | ResTy (TComposite _) | ResTy (TTuple _) => encode_struct_c (source_fields (composite_map snd c)) t out
      | ResTy (TSequence t') => encode_all_c (map snd (values c)) t' (out ++ compact_encode (N.of_nat (clen c) mod 2 ^ 32))
      | ResTy (TArray t' n) =>
          if N.of_nat (clen c) =? n then encode_all_c (map snd (values c)) t' out else free (SErr XWrongLength, out)
      | ResTy (TBitSeq st o) =>
          free (match bits_of (map fst (values c)) with Some b => (SOk, out ++ encode_bits st o b) | None => (SErr XBadBit, out) end)
      | _ => match values c with [x] => snd x t out | _ => free (SErr XWrongShape, out) end
      end.
    Definition encode_composite_c (c : composite item) (t : TId) (out : bytes) : cres :=
      match do_encode_c c t [] with
      | ((SOk, tmp), n) => ((SOk, out ++ tmp), n)
      | ((SHang, _), n) => ((SHang, out), n)
      | ((SErr original_error, _), n) =>
          plus_calls n
          match find_single reg F t false with
          | None => free (SHang, out)
          | Some (t', different) =>
              match (if different then do_encode_c c t' [] else free (SErr original_error, [])) with
              | ((SOk, tmp), n) => ((SOk, out ++ tmp), n)
              | ((SHang, _), n) => ((SHang, out), n)
              | ((SErr _, _), n) =>
                  plus_calls n
                  match values c with
                  | [x] => match snd x t' [] with
                           | ((SOk, tmp), n) => ((SOk, out ++ tmp), n)
                           | ((SHang, _), n) => ((SHang, out), n)
                           | ((SErr _, _), n) => ((SErr original_error, out), n)
                           end
                  | _ => free (SErr original_error, out)
                  end
              end
          end
      end.
    Definition encode_variant_c (name : str) (c : composite item) (t : TId) (out : bytes) : cres :=
      match skip_through reg F t with
      | None => free (SHang, out)
      | Some t1 =>
          match reg t1 with
          | ResErr => free (SErr XTypeResolving, out)
          | ResTy (TVariant vs) =>
              match find (fun v => str_eqb (vi_name v) name) vs with
              | None => free (SErr XNoVariant, out)
              | Some v => encode_fields_c (source_fields (composite_map snd c)) (vi_fields v) (out ++ [vi_index v])
              end
          | _ => free (SErr XWrongShape, out)
          end
      end.
    (** One call, and those it makes. *)
    Fixpoint encode_c (v : value T) : TId -> bytes -> cres :=
      match v with
      | Val d _ => fun t out =>
          plus_calls 1
          match d with
          | DComposite c => encode_composite_c (composite_map (fun x => (x, encode_c x)) c) t out
          | DVariant name c => encode_variant_c name (composite_map (fun x => (x, encode_c x)) c) t out
          | DBits b => free (encode_bitseq reg F b t out)
          | DPrim p => free (encode_primitive reg X F p t out)
          end
      end.
  End Composite.
End Cost.

(** ** The counter changes nothing *)
Section Erase.
  Context {TId : Type} (reg : TId -> resolution TId) (X : ext) (F : nat).
  Definition erases (e : encoder (TId := TId)) (ec : encoder_c (TId := TId)) : Prop := forall t out, fst (ec t out) = e t out.
  Definition erases_f (p : option str * encoder (TId := TId)) (pc : option str * encoder_c (TId := TId)) : Prop :=
    fst p = fst pc /\ erases (snd p) (snd pc).

  Lemma fst_andthen r k kc : (forall out, fst (kc out) = k out) -> fst (andthen_c r kc) = andthen (fst r) k.
  Proof. intro H. unfold andthen_c, andthen. destruct r as [[[|e|] out] n]; cbn [fst plus_calls]; auto. Qed.
  Lemma erase_all es ec : Forall2 erases es ec -> forall t out, fst (encode_all_c ec t out) = encode_all es t out.
  Proof.
    induction 1 as [|e c es ec H HF IH]; intros t out; [reflexivity|]. cbn [encode_all encode_all_c].
    rewrite (fst_andthen _ (fun out' => encode_all es t out')) by (intro; apply IH). now rewrite H.
  Qed.
  Lemma erase_in_order es ec : Forall2 erases es ec -> forall ts out, fst (encode_in_order_c ec ts out) = encode_in_order es ts out.
  Proof.
    induction 1 as [|e c es ec H HF IH]; intros [|t ts] out; try reflexivity. cbn [encode_in_order encode_in_order_c].
    rewrite (fst_andthen _ (fun out' => encode_in_order es ts out')) by (intro; apply IH). now rewrite H.
  Qed.
  Lemma erase_lookup src srcc : Forall2 erases_f src srcc -> forall name,
    match lookup_last name src, lookup_last_c name srcc with Some e, Some c => erases e c | None, None => True | _, _ => False end.
  Proof.
    induction 1 as [|f c src srcc [H1 H2] HF IH]; intro name; cbn [lookup_last lookup_last_c]; [exact I|].
    specialize (IH name). destruct (lookup_last name src), (lookup_last_c name srcc); try contradiction; [exact IH|].
    unfold key_of. rewrite <- H1. destruct (str_eqb _ name); auto.
  Qed.
  Lemma erase_by_name src srcc : Forall2 erases_f src srcc -> forall fs out, fst (encode_by_name_c srcc fs out) = encode_by_name src fs out.
  Proof.
    intros H fs. induction fs as [|fd fs IH]; intro out; [reflexivity|]. cbn [encode_by_name encode_by_name_c].
    pose proof (erase_lookup _ _ H (key_of fd)) as HL.
    destruct (lookup_last (key_of fd) src), (lookup_last_c (key_of fd) srcc); try contradiction; [|reflexivity].
    rewrite (fst_andthen _ (fun out' => encode_by_name src fs out')) by (intro; apply IH). now rewrite HL.
  Qed.
  Lemma erase_named src srcc : Forall2 erases_f src srcc -> existsb named_field srcc = existsb named_field src.
  Proof. induction 1 as [|f c src srcc [H1 H2] HF IH]; [reflexivity|]. cbn [existsb]. unfold named_field at 1 3. now rewrite H1, IH. Qed.
  Lemma erase_snds src srcc : Forall2 erases_f src srcc -> Forall2 erases (map snd src) (map snd srcc).
  Proof. induction 1 as [|f c src srcc [H1 H2] HF IH]; cbn [map]; constructor; auto. Qed.
  Lemma erase_fields src srcc : Forall2 erases_f src srcc -> forall fs out, fst (encode_fields_c srcc fs out) = encode_fields src fs out.
  Proof.
    intros H fs out. unfold encode_fields_c, encode_fields. rewrite (erase_named _ _ H).
    destruct (_ && _); [now apply erase_by_name|].
    assert (HL : length srcc = length src) by (clear -H; induction H; cbn [length]; congruence). rewrite HL.
    destruct (_ =? _)%nat; [|reflexivity]. now apply erase_in_order, erase_snds.
  Qed.
  Lemma erase_struct src srcc : Forall2 erases_f src srcc -> forall t out, fst (encode_struct_c reg F srcc t out) = encode_struct reg F src t out.
  Proof.
    intros H t out. unfold encode_struct_c, encode_struct. destruct (skip_through reg F t) as [t1|]; [|reflexivity].
    assert (H1 : forall fs, fst (match srcc with [(None, e)] => e t1 out | _ => encode_fields_c srcc fs out end) =
                           match src with [(None, e)] => e t1 out | _ => encode_fields src fs out end).
    { intro fs. inversion H as [|f c src' srcc' [Ha Hb] HF]; subst; [now apply erase_fields|]. destruct f as [[n|] e], c as [n' ec]; cbn [fst snd] in *; subst n'.
      - destruct HF; apply erase_fields; exact H.
      - destruct HF; [apply Hb|]. apply erase_fields. exact H. }
    assert (H2 : forall fs, fst (match srcc with [(_, e)] => e t1 out | _ => encode_fields_c srcc fs out end) =
                           match src with [(_, e)] => e t1 out | _ => encode_fields src fs out end).
    { intro fs. inversion H as [|f c src' srcc' [Ha Hb] HF]; subst; [now apply erase_fields|]. destruct f as [n e], c as [n' ec]; cbn [fst snd] in *; subst n'.
      destruct HF; [apply Hb|]. apply erase_fields. exact H. }
    assert (H3 : fst (match srcc with [(_, e)] => e t1 out | _ => free (SErr XWrongShape, out) end) =
                           match src with [(_, e)] => e t1 out | _ => (SErr XWrongShape, out) end).
    { inversion H as [|f c src' srcc' [Ha Hb] HF]; subst; [reflexivity|]. destruct f as [n e], c as [n' ec]; cbn [fst snd] in *; subst n'.
      destruct HF; [apply Hb|reflexivity]. }
    destruct (reg t1) as [| |[]]; auto.
  Qed.

  Context {T : Type}.
  Definition pair_of (x : value T) : value T * encoder := (x, encode reg X F x).
  Definition pair_of_c (x : value T) : value T * encoder_c := (x, encode_c reg X F x).
  Lemma values_cmap {A B} (f : A -> B) (c : composite A) : values (composite_map f c) = map f (values c).
  Proof. destruct c as [l|l]; cbn [composite_map values]; [|reflexivity]. now rewrite !map_map. Qed.
  Lemma erase_source (c : composite (value T)) : Forall (fun x => erases (encode reg X F x) (encode_c reg X F x)) (values c) ->
    Forall2 erases_f (source_fields (composite_map snd (composite_map pair_of c))) (source_fields (composite_map snd (composite_map pair_of_c c))).
  Proof.
    destruct c as [l|l]; cbn [values composite_map source_fields]; rewrite !map_map; intro H.
    - rewrite Forall_map in H. induction H; cbn [map]; constructor; [split; [reflexivity|]; assumption|assumption].
    - induction H; cbn [map]; constructor; [split; [reflexivity|]; assumption|assumption].
  Qed.
  Lemma clen_cmap {A B} (f : A -> B) (c : composite A) : clen (composite_map f c) = clen c.
  Proof. destruct c; cbn [composite_map clen]; now rewrite map_length. Qed.
  Lemma erase_do (c : composite (value T)) : Forall (fun x => erases (encode reg X F x) (encode_c reg X F x)) (values c) ->
    forall t out, fst (do_encode_c reg F (composite_map pair_of_c c) t out) = do_encode reg F (composite_map pair_of c) t out.
  Proof.
    intros H t out. unfold do_encode_c, do_encode. rewrite !clen_cmap, !values_cmap, !map_map.
    assert (HA : forall t out, fst (encode_all_c (map (fun x => snd (pair_of_c x)) (values c)) t out) = encode_all (map (fun x => snd (pair_of x)) (values c)) t out).
    { apply erase_all. induction H; cbn [map]; constructor; auto. }
    assert (H3 : fst (match map pair_of_c (values c) with [x] => snd x t out | _ => free (SErr XWrongShape, out) end) =
                 match map pair_of (values c) with [x] => snd x t out | _ => (SErr XWrongShape, out) end).
    { destruct H as [|x l Hx H']; [reflexivity|]. destruct H'; [apply Hx|reflexivity]. }
    destruct (reg t) as [| |[]]; try exact H3; try reflexivity.
    all: first [now apply erase_struct, erase_source|apply HA|destruct (_ =? _); [apply HA|reflexivity]|idtac].
  Qed.
  Lemma erase_encode (v : value T) : erases (encode reg X F v) (encode_c reg X F v).
  Proof.
    induction v as [d ctx IH] using value_ind'. intros t out. destruct d as [c|n c|b|p]; cbn [children] in IH.
    - change (fst (encode_composite_c reg F (composite_map pair_of_c c) t out) = encode_composite reg F (composite_map pair_of c) t out).
      unfold encode_composite_c, encode_composite.
      pose proof (erase_do c IH) as HD. rewrite <- (HD t []).
      destruct (do_encode_c reg F (composite_map pair_of_c c) t []) as [[[|e|] tmp] k]; cbn [fst plus_calls]; try reflexivity.
      destruct (find_single reg F t false) as [[t' diff]|]; [|reflexivity].
      assert (HI : fst (if diff then do_encode_c reg F (composite_map pair_of_c c) t' [] else free (SErr e, [])) =
                   if diff then do_encode reg F (composite_map pair_of c) t' [] else (SErr e, [])).
      { destruct diff; [apply HD|reflexivity]. }
      rewrite <- HI. destruct (if diff then _ else _) as [[[|e'|] tmp'] k']; cbn [fst plus_calls]; try reflexivity.
      rewrite !values_cmap. destruct (values c) as [|x [|y l]]; cbn [map]; try reflexivity.
      cbn [pair_of pair_of_c snd]. inversion_clear IH as [|? ? Hx _]. rewrite <- (Hx t' []).
      destruct (encode_c reg X F x t' []) as [[[|e''|] tmp''] k'']; reflexivity.
    - change (fst (encode_variant_c reg F n (composite_map pair_of_c c) t out) = encode_variant reg F n (composite_map pair_of c) t out).
      unfold encode_variant_c, encode_variant.
      destruct (skip_through reg F t) as [t1|]; [|reflexivity]. destruct (reg t1) as [| |[]]; try reflexivity.
      destruct (find _ _); [|reflexivity]. now apply erase_fields, erase_source.
    - reflexivity.
    - reflexivity.
  Qed.
End Erase.
