(** * EncodeFacts: appending, context independence, fuel. *)
From Verif Require Import Base Value ValueFacts Registry Spec_Scale Scale Encode.
Open Scope N_scope.

(** ** Encoding only appends *)
(** The effect of [g] on a buffer is to append fixed bytes, with a fixed status. *)
Definition appending (g : bytes -> eres) : Prop := exists s b, forall out, g out = (s, out ++ b).

Lemma app_const s : appending (fun out => (s, out)).
Proof. exists s, []. intro out. rewrite app_nil_r. reflexivity. Qed.
Lemma app_write s b : appending (fun out => (s, out ++ b)).
Proof. exists s, b. reflexivity. Qed.
Lemma app_andthen g k : appending g -> appending k -> appending (fun out => andthen (g out) k).
Proof.
  intros (s & b & G) (s' & b' & K). destruct s.
  - exists s', (b ++ b'). intro out. rewrite G. cbn [andthen]. rewrite K, app_assoc. reflexivity.
  - exists (SErr e), b. intro out. rewrite G. reflexivity.
  - exists SHang, b. intro out. rewrite G. reflexivity.
Qed.
Lemma app_pre g b : appending g -> appending (fun out => g (out ++ b)).
Proof. intros (s & b' & G). exists s, (b ++ b'). intro out. rewrite G, app_assoc. reflexivity. Qed.
#[export] Hint Resolve app_const app_write : app.

Section Append.
  Context {TId : Type} (reg : TId -> resolution TId) (X : ext) (F : nat).

  Definition eapp (e : encoder (TId:=TId)) : Prop := forall t, appending (e t).

  Lemma encode_number_app z : eapp (encode_number reg F z).
  Proof.
    intro t. unfold encode_number. destruct (find_single reg F t false) as [[t1 b]|]; [|auto with app].
    destruct (reg t1) as [| |[fs|vs|t'|t' n|ts|p|t'|st o]]; try solve [apply app_const].
    - destruct p; try solve [apply app_const].
      + destruct (in_unsigned w z); auto with app.
      + destruct (in_signed w z); auto with app.
    - destruct (find_single reg F t' false) as [[t3 b3]|]; [|auto with app].
      destruct (reg t3) as [| |[fs|vs|t''|t'' n|ts|p|t''|st o]]; try solve [apply app_const].
      destruct p; try solve [apply app_const]. destruct (in_unsigned w z); auto with app.
  Qed.

  Lemma encode_leaf_app f : eapp (encode_leaf reg F f).
  Proof.
    intro t. unfold encode_leaf. destruct (find_single reg F t false) as [[t1 b]|]; [|auto with app].
    destruct (reg t1) as [| |ty]; [auto with app|auto with app|]. destruct (f ty); auto with app.
  Qed.

  Lemma encode_char_app c : eapp (encode_char reg X F c).
  Proof.
    intro t. unfold encode_char. destruct (find_single reg F t false) as [[t1 b]|]; [|auto with app].
    destruct (reg t1) as [| |[fs|vs|t'|t' n|ts|p|t'|st o]]; try apply encode_number_app.
    destruct p; try apply encode_number_app. destruct (x_char X); auto with app.
  Qed.

  Lemma encode_all_app es : Forall eapp es -> forall t, appending (fun out => encode_all es t out).
  Proof.
    induction 1 as [|e es He _ IH]; intro t; cbn [encode_all]; [auto with app|]. apply app_andthen; [apply He|apply IH].
  Qed.

  Lemma encode_byte_array_app f b : eapp (encode_byte_array reg X F f b).
  Proof.
    assert (N : Forall eapp (map (fun x => encode_number reg F (Z.of_N x)) b)).
    { apply Forall_map, Forall_forall. intros x _. apply encode_number_app. }
    induction f as [|f IH]; intro t; cbn [encode_byte_array]; [auto with app|].
    destruct (reg t) as [| |[fs|vs|t'|t' n|ts|p|t'|st o]]; try solve [apply app_const].
    - destruct fs as [|fd [|]]; try solve [apply app_const]. apply IH.
    - apply (app_pre (fun out => encode_all _ t' out)), encode_all_app, N.
    - destruct (N.of_nat (length b) =? n); [|auto with app]. apply encode_all_app, N.
    - destruct ts as [|t' [|]]; try solve [apply app_const]. apply IH.
    - destruct p; try solve [apply app_const]; destruct (x_256 X); auto with app.
  Qed.

  Lemma encode_primitive_app p : eapp (encode_primitive reg X F p).
  Proof.
    destruct p; cbn [encode_primitive]; try apply encode_leaf_app; try apply encode_number_app; try apply encode_byte_array_app.
    apply encode_char_app.
  Qed.

  Lemma lookup_last_in name src (e : encoder (TId:=TId)) : lookup_last name src = Some e -> In e (map snd src).
  Proof.
    induction src as [|f src IH]; cbn [lookup_last map]; [discriminate|]. destruct (lookup_last name src) as [e'|].
    - intros [= ->]. right. apply IH. reflexivity.
    - destruct (str_eqb (key_of f) name); [|discriminate]. intros [= <-]. left. reflexivity.
  Qed.

  Lemma encode_by_name_app src fs : Forall eapp (map snd src) -> appending (fun out => encode_by_name src fs out).
  Proof.
    intro H. induction fs as [|fd fs IH]; cbn [encode_by_name]; [auto with app|].
    destruct (lookup_last (key_of fd) src) as [e|] eqn:E; [|auto with app]. apply lookup_last_in in E.
    apply app_andthen; [|exact IH]. rewrite Forall_forall in H. exact (H e E (snd fd)).
  Qed.

  Lemma encode_in_order_app es : Forall eapp es -> forall ts, appending (fun out => encode_in_order es ts out).
  Proof.
    induction 1 as [|e es He _ IH]; intros [|t ts]; cbn [encode_in_order]; auto with app.
    apply app_andthen; [apply He|apply IH].
  Qed.

  Lemma encode_fields_app src fs : Forall eapp (map snd src) -> appending (fun out => encode_fields src fs out).
  Proof.
    intro H. unfold encode_fields. destruct (_ && _); [apply encode_by_name_app; exact H|].
    destruct (_ =? _)%nat; [|auto with app]. apply encode_in_order_app. exact H.
  Qed.

  Lemma encode_struct_app src t : Forall eapp (map snd src) -> appending (fun out => encode_struct reg F src t out).
  Proof.
    intro H. unfold encode_struct. destruct (skip_through reg F t) as [t1|]; [|auto with app].
    assert (S1 : forall (P : bytes -> eres), appending P -> appending (fun out => match src with [(_, e)] => e t1 out | _ => P out end)).
    { intros P HP. destruct src as [|[n e] [|]]; [exact HP| |exact HP]. inversion H; subst. apply H2. }
    assert (S2 : forall (P : bytes -> eres), appending P -> appending (fun out => match src with [(None, e)] => e t1 out | _ => P out end)).
    { intros P HP. destruct src as [|[[n|] e] [|]]; try exact HP. inversion H; subst. apply H2. }
    destruct (reg t1) as [| |[fs|vs|t'|t' n|ts|p|t'|st o]]; try (apply S1; auto with app; fail); [auto with app| |].
    - apply S2, encode_fields_app, H.
    - apply S1, encode_fields_app, H.
  Qed.

  Section Items.
    Context {T : Type}.
    Local Notation item := (value T * encoder (TId:=TId))%type.

    Lemma source_fields_snd {A} (c : composite A) : map snd (source_fields c) = values c.
    Proof. destruct c as [l|l]; cbn; rewrite map_map; [reflexivity|]. apply map_id. Qed.

    Lemma values_map {A B} (f : A -> B) (c : composite A) : values (composite_map f c) = map f (values c).
    Proof. destruct c as [l|l]; cbn; rewrite ?map_map; reflexivity. Qed.

    Lemma do_encode_app (c : composite item) t : Forall eapp (map snd (values c)) -> appending (fun out => do_encode reg F c t out).
    Proof.
      intro H. unfold do_encode.
      assert (S1 : appending (fun out => match values c with [x] => snd x t out | _ => (SErr XWrongShape, out) end)).
      { destruct (values c) as [|x [|]]; try solve [apply app_const]. cbn in H. inversion H; subst. apply H2. }
      assert (S2 : appending (fun out => encode_struct reg F (source_fields (composite_map snd c)) t out)).
      { apply encode_struct_app. rewrite source_fields_snd, values_map. exact H. }
      destruct (reg t) as [| |[fs|vs|t'|t' n|ts|p|t'|st o]]; try exact S1; try exact S2; [auto with app| | |].
      - apply (app_pre (fun out => encode_all _ t' out)), encode_all_app, H.
      - destruct (_ =? n); [|auto with app]. apply encode_all_app, H.
      - destruct (bits_of _); auto with app.
    Qed.

    Lemma encode_composite_app (c : composite item) t : appending (fun out => encode_composite reg F c t out).
    Proof.
      unfold encode_composite. destruct (do_encode reg F c t []) as [[|e|] tmp]; [auto with app| |auto with app].
      destruct (find_single reg F t false) as [[t' d]|]; [|auto with app].
      destruct (if d then do_encode reg F c t' [] else (SErr e, [])) as [[|e'|] tmp']; [auto with app| |auto with app].
      destruct (values c) as [|x [|]]; try solve [apply app_const].
      destruct (snd x t' []) as [[| |] tmp'']; auto with app.
    Qed.

    Lemma encode_variant_app name (c : composite item) t : Forall eapp (map snd (values c)) ->
      appending (fun out => encode_variant reg F name c t out).
    Proof.
      intro H. unfold encode_variant. destruct (skip_through reg F t) as [t1|]; [|auto with app].
      destruct (reg t1) as [| |[fs|vs|t'|t' n|ts|p|t'|st o]]; try solve [apply app_const].
      destruct (find _ vs) as [v|]; [|auto with app].
      apply (app_pre (fun out => encode_fields _ _ out)), encode_fields_app. rewrite source_fields_snd, values_map. exact H.
    Qed.

    Theorem encode_app (v : value T) : eapp (encode reg X F v).
    Proof.
      induction v as [d ctx IH] using value_ind'. intro t.
      assert (HI : forall c, values c = children d -> Forall eapp (map snd (values (composite_map (fun x => (x, encode reg X F x)) c)))).
      { intros c E. rewrite values_map, map_map, E. apply Forall_map. exact IH. }
      destruct d as [c|n c|b|p]; cbn [encode].
      - apply encode_composite_app.
      - apply encode_variant_app, HI. reflexivity.
      - apply encode_leaf_app.
      - apply encode_primitive_app.
    Qed.

    Lemma encode_composite_as_fields_app (c : composite (value T)) fs : appending (encode_composite_as_fields reg X F c fs).
    Proof.
      apply encode_fields_app. rewrite source_fields_snd, values_map. apply Forall_map, Forall_forall. intros. apply encode_app.
    Qed.
  End Items.
End Append.

(** ** Comparing two encoders
    [rel h r1 r2]: equal, or (when [h]) the first one ran out of fuel. *)
Definition rel (h : bool) (r1 r2 : eres) : Prop := r1 = r2 \/ (h = true /\ fst r1 = SHang).
Lemma rel_refl h r : rel h r r. Proof. left; reflexivity. Qed.
Lemma rel_andthen h r1 r2 k1 k2 : rel h r1 r2 -> (forall out, rel h (k1 out) (k2 out)) -> rel h (andthen r1 k1) (andthen r2 k2).
Proof.
  intros [->|[-> E]] K.
  - destruct r2 as [[| |] out]; cbn [andthen]; [apply K|apply rel_refl|apply rel_refl].
  - destruct r1 as [s out]. cbn in E. subst s. right. split; reflexivity.
Qed.

Section Rel.
  Context {TId : Type} (reg : TId -> resolution TId) (X : ext) (h : bool) (F1 F2 : nat).
  Context (HF : F1 = F2 \/ (h = true /\ (F1 <= F2)%nat)).

  Lemma find_single_mono f1 : forall f2 t c, (f1 <= f2)%nat -> find_single reg f1 t c = None \/ find_single reg f1 t c = find_single reg f2 t c.
  Proof.
    induction f1 as [|f1 IH]; intros [|f2] t c H; try (left; reflexivity); [lia|]. cbn [find_single].
    destruct (reg t) as [| |[fs|vs|t'|t' n|ts|p|t'|st o]]; try (right; reflexivity).
    - destruct fs as [|fd [|]]; try (right; reflexivity). apply IH; lia.
    - destruct (n =? 1); [|right; reflexivity]. apply IH; lia.
    - destruct ts as [|t' [|]]; try (right; reflexivity). apply IH; lia.
  Qed.
  Lemma skip_through_mono f1 : forall f2 t, (f1 <= f2)%nat -> skip_through reg f1 t = None \/ skip_through reg f1 t = skip_through reg f2 t.
  Proof.
    induction f1 as [|f1 IH]; intros [|f2] t H; try (left; reflexivity); [lia|]. cbn [skip_through].
    destruct (reg t) as [| |[fs|vs|t'|t' n|ts|p|t'|st o]]; try (right; reflexivity).
    - destruct fs as [|[[n|] t'] [|]]; try (right; reflexivity). apply IH; lia.
    - destruct ts as [|t' [|]]; try (right; reflexivity). apply IH; lia.
  Qed.

  Lemma find_single_rel t c : find_single reg F1 t c = find_single reg F2 t c \/ (h = true /\ find_single reg F1 t c = None).
  Proof.
    destruct HF as [->|[Hh L]]; [left; reflexivity|]. destruct (find_single_mono F1 F2 t c L) as [E|E]; [right; auto|left; exact E].
  Qed.
  Lemma skip_through_rel t : skip_through reg F1 t = skip_through reg F2 t \/ (h = true /\ skip_through reg F1 t = None).
  Proof.
    destruct HF as [->|[Hh L]]; [left; reflexivity|]. destruct (skip_through_mono F1 F2 t L) as [E|E]; [right; auto|left; exact E].
  Qed.

  Definition erel (e1 e2 : encoder (TId:=TId)) : Prop := forall t out, rel h (e1 t out) (e2 t out).

  Ltac hang := right; split; [assumption|reflexivity].

  Lemma encode_number_rel z : erel (encode_number reg F1 z) (encode_number reg F2 z).
  Proof.
    intros t out. unfold encode_number. destruct (find_single_rel t false) as [->|[Hh ->]]; [|hang].
    destruct (find_single reg F2 t false) as [[t1 b]|]; [|apply rel_refl].
    destruct (reg t1) as [| |[fs|vs|t'|t' n|ts|p|t'|st o]]; try apply rel_refl.
    destruct (find_single_rel t' false) as [->|[Hh ->]]; [|hang]. apply rel_refl.
  Qed.
  Lemma encode_leaf_rel f : erel (encode_leaf reg F1 f) (encode_leaf reg F2 f).
  Proof.
    intros t out. unfold encode_leaf. destruct (find_single_rel t false) as [->|[Hh ->]]; [apply rel_refl|hang].
  Qed.
  Lemma encode_char_rel c : erel (encode_char reg X F1 c) (encode_char reg X F2 c).
  Proof.
    intros t out. unfold encode_char. destruct (find_single_rel t false) as [->|[Hh ->]]; [|hang].
    destruct (find_single reg F2 t false) as [[t1 b]|]; [|apply rel_refl].
    destruct (reg t1) as [| |[fs|vs|t'|t' n|ts|p|t'|st o]]; try apply encode_number_rel.
    destruct p; try apply encode_number_rel. apply rel_refl.
  Qed.
  Lemma encode_all_rel es1 es2 : Forall2 erel es1 es2 -> forall t out, rel h (encode_all es1 t out) (encode_all es2 t out).
  Proof.
    induction 1 as [|e1 e2 es1 es2 He _ IH]; intros t out; cbn [encode_all]; [apply rel_refl|]. apply rel_andthen; [apply He|apply IH].
  Qed.
  Lemma encode_byte_array_rel b : forall f1 f2, f1 = f2 \/ (h = true /\ (f1 <= f2)%nat) ->
    erel (encode_byte_array reg X F1 f1 b) (encode_byte_array reg X F2 f2 b).
  Proof.
    assert (N : Forall2 erel (map (fun x => encode_number reg F1 (Z.of_N x)) b) (map (fun x => encode_number reg F2 (Z.of_N x)) b)).
    { induction b as [|x b IH]; cbn [map]; constructor; [apply encode_number_rel|exact IH]. }
    induction f1 as [|f1 IH]; intros f2 Hf t out.
    - destruct f2 as [|f2]; [apply rel_refl|]. destruct Hf as [Hf|[Hh _]]; [discriminate|]. hang.
    - destruct f2 as [|f2]; [destruct Hf as [Hf|[Hh Hf]]; [discriminate|lia]|]. cbn [encode_byte_array].
      assert (Hf' : f1 = f2 \/ h = true /\ (f1 <= f2)%nat) by (destruct Hf as [Hf|[Hh Hf]]; [left; congruence|right; split; [exact Hh|lia]]).
      destruct (reg t) as [| |[fs|vs|t'|t' n|ts|p|t'|st o]]; try apply rel_refl.
      + destruct fs as [|fd [|]]; try apply rel_refl. apply IH, Hf'.
      + apply encode_all_rel, N.
      + destruct (_ =? n); [|apply rel_refl]. apply encode_all_rel, N.
      + destruct ts as [|t' [|]]; try apply rel_refl. apply IH, Hf'.
  Qed.
  Lemma encode_primitive_rel p : erel (encode_primitive reg X F1 p) (encode_primitive reg X F2 p).
  Proof.
    destruct p; cbn [encode_primitive]; try apply encode_leaf_rel; try apply encode_number_rel; try (apply encode_byte_array_rel, HF).
    apply encode_char_rel.
  Qed.

  Definition frel (f1 f2 : option str * encoder (TId:=TId)) : Prop := fst f1 = fst f2 /\ erel (snd f1) (snd f2).

  Lemma lookup_last_rel name src1 src2 : Forall2 frel src1 src2 ->
    (lookup_last name src1 = None /\ lookup_last name src2 = None) \/
    (exists e1 e2, lookup_last name src1 = Some e1 /\ lookup_last name src2 = Some e2 /\ erel e1 e2).
  Proof.
    induction 1 as [|[n1 e1] [n2 e2] src1 src2 [En He] _ IH]; cbn [lookup_last fst snd] in *; [left; auto|]. subst n2.
    destruct IH as [[-> ->]|(a & b & -> & -> & Hab)].
    - unfold key_of; cbn [fst snd]. destruct (str_eqb _ name); [right; eauto 6|left; auto].
    - right; eauto 6.
  Qed.

  Lemma existsb_named_rel src1 src2 : Forall2 frel src1 src2 -> existsb named_field src1 = existsb named_field src2.
  Proof.
    induction 1 as [|[n1 e1] [n2 e2] src1 src2 [En He] _ IH]; cbn [existsb fst snd] in *; [reflexivity|]. subst n2. rewrite IH. reflexivity.
  Qed.

  Lemma encode_by_name_rel src1 src2 : Forall2 frel src1 src2 -> forall fs out, rel h (encode_by_name src1 fs out) (encode_by_name src2 fs out).
  Proof.
    intro H. induction fs as [|fd fs IH]; intro out; cbn [encode_by_name]; [apply rel_refl|].
    destruct (lookup_last_rel (key_of fd) _ _ H) as [[-> ->]|(a & b & -> & -> & Hab)]; [apply rel_refl|].
    apply rel_andthen; [apply Hab|apply IH].
  Qed.

  Lemma encode_in_order_rel src1 src2 : Forall2 frel src1 src2 -> forall ts out,
    rel h (encode_in_order (map snd src1) ts out) (encode_in_order (map snd src2) ts out).
  Proof.
    induction 1 as [|f1 f2 src1 src2 [_ He] _ IH]; intros [|t ts] out; cbn [encode_in_order map]; try apply rel_refl.
    apply rel_andthen; [apply He|apply IH].
  Qed.

  Lemma encode_fields_rel src1 src2 : Forall2 frel src1 src2 -> forall fs out, rel h (encode_fields src1 fs out) (encode_fields src2 fs out).
  Proof.
    intros H fs out. unfold encode_fields. rewrite (existsb_named_rel _ _ H), (Forall2_length' _ _ _ H).
    destruct (_ && _); [apply encode_by_name_rel; exact H|]. destruct (_ =? _)%nat; [|apply rel_refl]. apply encode_in_order_rel; exact H.
  Qed.

  Lemma encode_struct_rel src1 src2 : Forall2 frel src1 src2 -> forall t out,
    rel h (encode_struct reg F1 src1 t out) (encode_struct reg F2 src2 t out).
  Proof.
    intros H t out. unfold encode_struct. destruct (skip_through_rel t) as [->|[Hh ->]]; [|hang].
    destruct (skip_through reg F2 t) as [t1|]; [|apply rel_refl].
    pose proof (encode_fields_rel _ _ H) as HFl.
    assert (S1 : forall P1 P2, rel h P1 P2 ->
       rel h (match src1 with [(_, e)] => e t1 out | _ => P1 end) (match src2 with [(_, e)] => e t1 out | _ => P2 end)).
    { intros P1 P2 HP. destruct H as [|[n1 e1] [n2 e2] s1 s2 [En He] Hs]; [exact HP|]. destruct Hs; [apply He|exact HP]. }
    assert (S2 : forall P1 P2, rel h P1 P2 ->
       rel h (match src1 with [(None, e)] => e t1 out | _ => P1 end) (match src2 with [(None, e)] => e t1 out | _ => P2 end)).
    { intros P1 P2 HP. destruct H as [|[n1 e1] [n2 e2] s1 s2 [En He] Hs]; [exact HP|]. cbn [fst snd] in En. subst n2.
      destruct n1; [exact HP|]. destruct Hs; [apply He|exact HP]. }
    destruct (reg t1) as [| |[fs|vs|t'|t' n|ts|p|t'|st o]]; try apply rel_refl; try apply S1; try apply S2; try apply rel_refl; apply HFl.
  Qed.

  Section Items.
    Context {T1 T2 : Type}.
    Local Notation item1 := (value T1 * encoder (TId:=TId))%type.
    Local Notation item2 := (value T2 * encoder (TId:=TId))%type.

    Definition irel (x1 : item1) (x2 : item2) : Prop := bit_of (fst x1) = bit_of (fst x2) /\ erel (snd x1) (snd x2).

    (** Same names, related values. *)
    Inductive crel {A B} (R : A -> B -> Prop) : composite A -> composite B -> Prop :=
    | CR_named l1 l2 : Forall2 (fun a b => fst a = fst b /\ R (snd a) (snd b)) l1 l2 -> crel R (Named l1) (Named l2)
    | CR_unnamed l1 l2 : Forall2 R l1 l2 -> crel R (Unnamed l1) (Unnamed l2).

    Lemma crel_values {A B} (R : A -> B -> Prop) c1 c2 : crel R c1 c2 -> Forall2 R (values c1) (values c2).
    Proof.
      intros [l1 l2 H|l1 l2 H]; cbn [values]; [|exact H]. induction H as [|a b l1 l2 [_ Hab] _ IH]; cbn [map]; constructor; assumption.
    Qed.

    Lemma crel_source c1 c2 : crel irel c1 c2 ->
      Forall2 frel (source_fields (composite_map snd c1)) (source_fields (composite_map snd c2)).
    Proof.
      intros [l1 l2 H|l1 l2 H]; cbn [composite_map source_fields]; rewrite ?map_map.
      - induction H as [|[k1 x1] [k2 x2] l1 l2 [Ek [_ He]] _ IH]; cbn [map fst snd] in *; constructor; [|exact IH]. split; [cbn; congruence|exact He].
      - induction H as [|x1 x2 l1 l2 [_ He] _ IH]; cbn [map]; constructor; [|exact IH]. split; [reflexivity|exact He].
    Qed.

    Lemma clen_values {A} (c : composite A) : clen c = length (values c).
    Proof. destruct c; cbn; rewrite ?map_length; reflexivity. Qed.

    Lemma bits_of_rel (l1 : list item1) (l2 : list item2) : Forall2 irel l1 l2 -> bits_of (map fst l1) = bits_of (map fst l2).
    Proof. induction 1 as [|x1 x2 l1 l2 [Hb _] _ IH]; cbn [map bits_of]; [reflexivity|]. rewrite Hb, IH. reflexivity. Qed.

    Lemma do_encode_rel c1 c2 : crel irel c1 c2 -> forall t out, rel h (do_encode reg F1 c1 t out) (do_encode reg F2 c2 t out).
    Proof.
      intros H t out. pose proof (crel_values _ _ _ H) as HV. pose proof (crel_source _ _ H) as HS. unfold do_encode.
      rewrite !clen_values, (Forall2_length' _ _ _ HV), (bits_of_rel _ _ HV).
      assert (HA : Forall2 erel (map snd (values c1)) (map snd (values c2))).
      { induction HV as [|x1 x2 l1 l2 [_ He] _ IH]; cbn [map]; constructor; auto. }
      destruct (reg t) as [| |[fs|vs|t'|t' n|ts|p|t'|st o]]; try apply rel_refl; try (apply encode_struct_rel; exact HS).
      all: try (destruct HV as [|x1 x2 l1 l2 [_ He] [|]]; try apply rel_refl; apply He).
      - apply encode_all_rel, HA.
      - destruct (_ =? n); [|apply rel_refl]. apply encode_all_rel, HA.
    Qed.

    Lemma encode_composite_rel c1 c2 : crel irel c1 c2 -> forall t out, rel h (encode_composite reg F1 c1 t out) (encode_composite reg F2 c2 t out).
    Proof.
      intros H t out. unfold encode_composite. pose proof (do_encode_rel _ _ H) as HD. pose proof (crel_values _ _ _ H) as HV.
      destruct (HD t []) as [->|[Hh E]].
      2: { destruct (do_encode reg F1 c1 t []) as [s o]. cbn in E. subst s. hang. }
      destruct (do_encode reg F2 c2 t []) as [[|e|] tmp]; try apply rel_refl.
      destruct (find_single_rel t false) as [->|[Hh ->]]; [|hang].
      destruct (find_single reg F2 t false) as [[t' d]|]; [|apply rel_refl].
      assert (HX : rel h (if d then do_encode reg F1 c1 t' [] else (SErr e, [])) (if d then do_encode reg F2 c2 t' [] else (SErr e, []))).
      { destruct d; [apply HD|apply rel_refl]. }
      destruct HX as [->|[Hh E]].
      2: { destruct (if d then do_encode reg F1 c1 t' [] else (SErr e, [])) as [s o]. cbn in E. subst s. hang. }
      destruct (if d then do_encode reg F2 c2 t' [] else (SErr e, [])) as [[|e'|] tmp']; try apply rel_refl.
      destruct HV as [|x1 x2 l1 l2 [_ He] Hs]; [apply rel_refl|]. destruct Hs; [|apply rel_refl].
      destruct (He t' []) as [->|[Hh E]]; [apply rel_refl|].
      destruct (snd x1 t' []) as [s o]. cbn in E. subst s. hang.
    Qed.

    Lemma encode_variant_rel name c1 c2 : crel irel c1 c2 -> forall t out,
      rel h (encode_variant reg F1 name c1 t out) (encode_variant reg F2 name c2 t out).
    Proof.
      intros H t out. pose proof (crel_source _ _ H) as HS. unfold encode_variant.
      destruct (skip_through_rel t) as [->|[Hh ->]]; [|hang]. destruct (skip_through reg F2 t) as [t1|]; [|apply rel_refl].
      destruct (reg t1) as [| |[fs|vs|t'|t' n|ts|p|t'|st o]]; try apply rel_refl.
      destruct (find _ vs) as [v|]; [|apply rel_refl]. apply encode_fields_rel, HS.
    Qed.
  End Items.

  Lemma bit_of_map {S T1 T2} (g : S -> T1 -> T2 * S) s (v : value T1) : bit_of (map_context g s v) = bit_of v.
  Proof. destruct v as [[c|n c|b|p] ctx]; reflexivity. Qed.

  Theorem encode_rel {S T1 T2} (g : S -> T1 -> T2 * S) (v : value T1) : forall s, erel (encode reg X F1 v) (encode reg X F2 (map_context g s v)).
  Proof.
    induction v as [d ctx IH] using value_ind'. intros s t out.
    assert (HC : forall c, values c = children d -> forall s',
       crel irel (composite_map (fun x => (x, encode reg X F1 x)) c)
                 (composite_map (fun x => (x, encode reg X F2 x)) (composite_map (map_context g s') c))).
    { intros c E s'. rewrite <- E in IH. destruct c as [l|l]; cbn [composite_map values] in *; constructor; rewrite map_map.
      - rewrite Forall_map in IH. clear E. induction IH as [|[k x] l Hx _ IHl]; cbn [map]; constructor; [|exact IHl].
        split; [reflexivity|]. split; cbn [fst snd]; [symmetry; apply bit_of_map|apply Hx].
      - clear E. induction IH as [|x l Hx _ IHl]; cbn [map]; constructor; [|exact IHl].
        split; cbn [fst snd]; [symmetry; apply bit_of_map|apply Hx]. }
    cbn [map_context]. destruct d as [c|n c|b|p]; cbn [vdef_map encode].
    - apply encode_composite_rel, HC. reflexivity.
    - apply encode_variant_rel, HC. reflexivity.
    - apply encode_leaf_rel.
    - apply encode_primitive_rel.
  Qed.
End Rel.

Lemma encode_map_context {TId S T U} reg X F (g : S -> T -> U * S) s v (t : TId) out :
  encode reg X F (map_context g s v) t out = encode reg X F v t out.
Proof.
  destruct (encode_rel reg X false F F (or_introl eq_refl) g v s t out) as [E|[E _]]; [symmetry; exact E|discriminate].
Qed.

(** Running with more fuel changes nothing once the encoder does not hang. *)
Lemma encode_fuel_mono {TId T} reg X F1 F2 (v : value T) (t : TId) out : (F1 <= F2)%nat ->
  fst (encode reg X F1 v t out) <> SHang -> encode reg X F2 v t out = encode reg X F1 v t out.
Proof.
  intros L H. assert (I : map_context (pure_fn (fun x : T => x)) tt v = v) by (apply (map_ctx_id v)).
  destruct (encode_rel reg X true F1 F2 (or_intror (conj eq_refl L)) (pure_fn (fun x => x)) v tt t out) as [E|[_ E]].
  - rewrite E, I. reflexivity.
  - contradiction.
Qed.
