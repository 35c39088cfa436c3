(** * FmtText: facts about the rendered text: numbers, grammar membership, failure, white space. *)
From Verif Require Import Base Value ValueFacts Chars Spec_Grammar Parse ParseFacts ParseComplete ParseSound ParseNum Fmt Spec_Fmt FmtFacts.
Local Open Scope N_scope.

(** ** Numbers *)
Lemma dec_value_snoc ds d : dec_value (ds ++ [d]) = dec_value ds * 10 + (d - 48).
Proof.
  induction ds as [|x ds IH]; cbn [app dec_value length].
  - change (N.of_nat 0) with 0. rewrite N.pow_0_r. lia.
  - rewrite IH, app_length. cbn [length].
    replace (N.of_nat (length ds + 1)) with (N.succ (N.of_nat (length ds))) by lia.
    rewrite N.pow_succ_r'. nia.
Qed.

Lemma digits_fuel_spec k : forall n acc, (n < 10 ^ N.of_nat k) -> (0 < k)%nat ->
  exists ds, digits_fuel k n acc = ds ++ acc /\ forallb is_digit ds = true /\ dec_value ds = n /\
    (match ds with [] => False | d :: r => d = 48 -> r = [] end) /\ (n = 0 <-> ds = [48]).
Proof.
  induction k as [|k IH]; intros n acc Hn Hk; [lia|]. cbn [digits_fuel].
  assert (Hm : n mod 10 < 10) by (apply N.mod_lt; lia).
  assert (Hdig : is_digit (48 + n mod 10) = true) by (unfold is_digit; lia).
  destruct (n <? 10) eqn:E.
  - apply N.ltb_lt in E. exists [48 + n mod 10]. cbn [app forallb dec_value length].
    rewrite Hdig. split; [reflexivity|]. split; [reflexivity|]. rewrite (N.mod_small n 10) by lia.
    change (N.of_nat 0) with 0. rewrite N.pow_0_r. split; [lia|]. split; [reflexivity|].
    split; intro H; [f_equal; lia|injection H; lia].
  - apply N.ltb_ge in E. destruct k as [|k].
    { exfalso. change (N.of_nat 1) with 1 in Hn. rewrite N.pow_1_r in Hn. lia. }
    destruct (IH (n / 10) (48 + n mod 10 :: acc)) as (ds & -> & Hd & Hv & Hz & H0); [|lia|].
    { replace (N.of_nat (S (S k))) with (N.succ (N.of_nat (S k))) in Hn by lia. rewrite N.pow_succ_r' in Hn.
      apply N.div_lt_upper_bound; lia. }
    exists (ds ++ [48 + n mod 10]). rewrite <- app_assoc. cbn [app]. split; [reflexivity|].
    split; [rewrite forallb_app, Hd; cbn; now rewrite Hdig|].
    split; [rewrite dec_value_snoc, Hv; pose proof (N.div_mod n 10); lia|].
    assert (Hq : n / 10 <> 0) by (intro E0; apply N.div_small_iff in E0; lia).
    destruct ds as [|d r]; [contradiction|]. split.
    + cbn. intro E48. exfalso. apply Hq. apply H0. rewrite (Hz E48), E48. reflexivity.
    + split; [lia|]. cbn. intro HH. injection HH as E1 E2. destruct r; discriminate.
Qed.

Lemma size_nat_bound n : n < 10 ^ N.of_nat (S (N.size_nat n)).
Proof.
  assert (H : n < 2 ^ N.of_nat (N.size_nat n)).
  { destruct n as [|p]; [vm_compute; reflexivity|]. cbn [N.size_nat].
    induction p as [p IH|p IH|]; cbn [Pos.size_nat].
    - replace (N.of_nat (S (Pos.size_nat p))) with (N.succ (N.of_nat (Pos.size_nat p))) by lia. rewrite N.pow_succ_r'. lia.
    - replace (N.of_nat (S (Pos.size_nat p))) with (N.succ (N.of_nat (Pos.size_nat p))) by lia. rewrite N.pow_succ_r'. lia.
    - vm_compute. reflexivity. }
  eapply N.lt_le_trans; [exact H|].
  transitivity (10 ^ N.of_nat (N.size_nat n)).
  - apply N.pow_le_mono_l. lia.
  - apply N.pow_le_mono_r; lia.
Qed.

Lemma show_N_spec n : exists d r, show_N n = d :: r /\ forallb is_digit (d :: r) = true /\ dec_value (d :: r) = n /\
  (d = 48 -> r = [] /\ n = 0).
Proof.
  unfold show_N. destruct (digits_fuel_spec (S (N.size_nat n)) n [] (size_nat_bound n) ltac:(lia)) as (ds & E & Hd & Hv & Hz & H0).
  rewrite E, app_nil_r. destruct ds as [|d r]; [contradiction|]. exists d, r.
  split; [reflexivity|]. split; [exact Hd|]. split; [exact Hv|]. intros ->. rewrite (Hz eq_refl) in *. split; [reflexivity|]. now apply H0.
Qed.

Lemma digits_filter r : forallb is_digit r = true -> filter is_digit r = r.
Proof.
  induction r as [|c r IH]; cbn; [reflexivity|]. intro H. apply andb_true_iff in H as [H1 H2]. rewrite H1. f_equal. auto.
Qed.

Lemma show_N_digits n : g_digits n (show_N n).
Proof.
  destruct (show_N_spec n) as (d & r & -> & Hd & Hv & _). pose proof Hd as Hd'. cbn in Hd. apply andb_true_iff in Hd as [H1 H2].
  exists d, r. repeat split; auto.
  - rewrite forallb_forall in *. intros x Hx. now rewrite (H2 x Hx).
  - now rewrite digits_filter.
Qed.

(** ** Names and literals *)
Lemma is_ident_g U n : is_ident U n = true <-> g_ident U n.
Proof.
  unfold is_ident, g_ident. destruct n as [|c r].
  - split; [discriminate|intros (c & r & H & _); discriminate].
  - rewrite andb_true_iff. split; [intros [H1 H2]; eauto|]. intros (c' & r' & H & H1 & H2). injection H as -> ->. auto.
Qed.

Lemma has_prefix_starts p s : has_prefix p s = true <-> starts_with p s.
Proof.
  unfold starts_with. revert s; induction p as [|c p IH]; intro s; cbn [has_prefix].
  - split; [intros _; exists s; reflexivity|reflexivity].
  - destruct s as [|x s].
    + split; [discriminate|intros [r H]; discriminate].
    + rewrite andb_true_iff, N.eqb_eq, IH. split.
      * intros [-> [r ->]]. exists r. reflexivity.
      * intros [r H]. injection H as -> ->. eauto.
Qed.

Lemma concat_esc_body s : g_body s (concat (flat_map esc_chunks s)).
Proof.
  induction s as [|c s IH]; cbn [flat_map]; [constructor|]. unfold esc_chunks at 1.
  destruct (to_escape_code c) as [e|] eqn:E; cbn [app concat].
  - apply GB_esc; [|exact IH]. apply In_escapes. now apply escape_roundtrip.
  - apply to_escape_none in E as (H1 & H2 & H3). now apply GB_char.
Qed.

Lemma str_chunks_g s : g_string s (concat (str_chunks s)).
Proof.
  exists (concat (flat_map esc_chunks s)). split; [apply concat_esc_body|].
  unfold str_chunks. rewrite !concat_app. reflexivity.
Qed.

Lemma char_chunks_g c : g_char c (concat (char_chunks c)).
Proof.
  unfold char_chunks, esc_chunks. destruct (to_escape_code c) as [e|] eqn:E; cbn.
  - apply GC_esc. apply In_escapes. now apply escape_roundtrip.
  - apply to_escape_none in E as (H1 & H2 & H3). now apply GC_char.
Qed.

Lemma bits_chunks_text b : concat (bits_chunks b) = [c_lt] ++ map (fun x : bool => if x then c_1 else c_0) b ++ [c_gt].
Proof.
  unfold bits_chunks. rewrite !concat_app. f_equal. f_equal. induction b; cbn; congruence.
Qed.

Lemma name_chunks_g U n : g_field_name U n (concat (name_chunks U n)).
Proof.
  unfold name_chunks. destruct (is_ident U n) eqn:E.
  - cbn. rewrite app_nil_r. apply GF_ident. now apply is_ident_g.
  - apply GF_string, str_chunks_g.
Qed.

Lemma vname_chunks_g U n : is_ident U n && bool_like n = false -> g_variant_name U n (concat (vname_chunks U n)).
Proof.
  unfold vname_chunks. destruct (is_ident U n) eqn:E; intro H.
  - cbn. rewrite app_nil_r. cbn in H. unfold bool_like in H. apply orb_false_iff in H as [H1 H2].
    apply GV_ident; [now apply is_ident_g| |]; rewrite <- has_prefix_starts; congruence.
  - cbn [concat app]. apply GV_string, str_chunks_g.
Qed.

Section WS.
  Context (ind lead : str) (Hind : ws ind) (Hlead : ws lead).
  Lemma nlc_ws n : ws (concat (nlc ind lead n)).
  Proof.
    unfold nlc, ws in *. cbn [concat app forallb]. rewrite forallb_app, Hlead. cbn.
    induction n as [|n IH]; cbn; [reflexivity|]. rewrite forallb_app, Hind. exact IH.
  Qed.
  Lemma sp_ws st : ws (concat (sp st)).
  Proof. destruct st; reflexivity. Qed.
  Lemma isep_ws st : ws (concat (isep ind lead st)).
  Proof. destruct st; cbn [isep]; [apply nlc_ws|reflexivity|reflexivity]. Qed.
  Lemma nl_ws st : ws (concat (nl ind lead st)).
  Proof. destruct st; cbn [nl]; [apply nlc_ws|reflexivity|reflexivity]. Qed.
End WS.

(** ** The text is in the grammar *)
Lemma rseq_true a b : snd (rseq a b) = snd a && snd b.
Proof. unfold rseq. destruct a as [ca []]; reflexivity. Qed.
Lemma rseq_text a b : snd a = true -> concat (fst (rseq a b)) = concat (fst a) ++ concat (fst b).
Proof. unfold rseq. intros ->. cbn [fst]. apply concat_app. Qed.

Lemma rd_items_cons {A} ind lead (item : A -> rd) st a b l :
  rd_items ind lead item st (a :: b :: l) =
  rseq (item a) (rseq (rok (s2l "," :: isep ind lead st)) (rd_items ind lead item st (b :: l))).
Proof. cbn [rd_items map rseqs]. now rewrite rseq_assoc. Qed.
Lemma rd_items_one {A} ind lead (item : A -> rd) st a : rd_items ind lead item st [a] = rseq (item a) (rok []).
Proof. reflexivity. Qed.

Lemma rd_items_ok {A} ind lead (item : A -> rd) st l :
  snd (rd_items ind lead item st l) = forallb (fun x => snd (item x)) l.
Proof.
  destruct l as [|a l]; [reflexivity|]. revert a; induction l as [|b l IH]; intro a.
  - rewrite rd_items_one, rseq_true. reflexivity.
  - rewrite rd_items_cons, !rseq_true, IH. reflexivity.
Qed.

Lemma rd_composite_ok {T} U ind lead st (rv : value T -> rd) c :
  snd (rd_composite U ind lead st rv c) = forallb (fun x => snd (rv x)) (values c).
Proof.
  destruct c as [[|a l]|[|a l]]; try reflexivity; cbn [rd_composite values]; rewrite !rseq_true, rd_items_ok; cbn [snd rok andb];
    rewrite andb_true_r; [|reflexivity].
  generalize (a :: l) as l0; clear. induction l0 as [|kv l0 IH]; [reflexivity|]. cbn [forallb map]. rewrite <- IH.
  unfold rd_field at 1. rewrite rseq_true. reflexivity.
Qed.

Lemma forallb_map {A B} (f : A -> B) p l : forallb p (map f l) = forallb (fun x => p (f x)) l.
Proof. induction l; cbn; congruence. Qed.
Lemma forallb_ext_Forall {A} (f g : A -> bool) l : Forall (fun x => f x = g x) l -> forallb f l = forallb g l.
Proof. induction 1; cbn; congruence. Qed.

Lemma rd_value_ok {T} U ind lead (v : value T) : forall st, snd (rd_value U ind lead st v) = no_256 v.
Proof.
  induction v as [l ctx IH|l ctx IH|n l ctx IH|n l ctx IH|b ctx|p ctx] using value_ind4; intro st; cbn [rd_value rd_def no_256].
  - rewrite rd_composite_ok. cbn [values]. rewrite forallb_map. apply forallb_ext_Forall.
    eapply Forall_impl; [|exact IH]. intros kv H. apply H.
  - rewrite rd_composite_ok. cbn [values]. apply forallb_ext_Forall. eapply Forall_impl; [|exact IH]. intros kv H. apply H.
  - rewrite rseq_true, rd_composite_ok. cbn [values snd rok andb]. rewrite forallb_map. apply forallb_ext_Forall.
    eapply Forall_impl; [|exact IH]. intros kv H. apply H.
  - rewrite rseq_true, rd_composite_ok. cbn [values snd rok andb]. apply forallb_ext_Forall.
    eapply Forall_impl; [|exact IH]. intros kv H. apply H.
  - reflexivity.
  - destruct p as [[]|c|s|n|z|b|b]; reflexivity.
Qed.

Lemma text_ok_no256 bare {T} (v : value T) : text_ok bare v = true -> no_256 v = true.
Proof.
  induction v as [l ctx IH|l ctx IH|n l ctx IH|n l ctx IH|b ctx|p ctx] using value_ind4; cbn [text_ok no_256]; intro H.
  - rewrite forallb_forall in *. rewrite Forall_forall in IH. auto.
  - rewrite forallb_forall in *. rewrite Forall_forall in IH. auto.
  - apply andb_true_iff in H as [_ H]. rewrite forallb_forall in *. rewrite Forall_forall in IH. auto.
  - apply andb_true_iff in H as [_ H]. rewrite forallb_forall in *. rewrite Forall_forall in IH. auto.
  - reflexivity.
  - destruct p; auto.
Qed.

Section Grammar.
  Context {T : Type} (U : unicode) (ind lead : str) (Hind : ws ind) (Hlead : ws lead).
  Context (X : value unit -> str -> Prop).
  Let G := g_val U X.

  Lemma items_g (rv : value T -> rd) st a l :
    Forall (fun v => snd (rv v) = true /\ G (unsigned_form v) (concat (fst (rv v)))) (a :: l) ->
    g_items U X (map unsigned_form (a :: l)) (concat (fst (rd_items ind lead rv st (a :: l)))).
  Proof.
    revert a; induction l as [|b l IH]; intros a H; inversion_clear H as [|? ? [Ha1 Ha2] Hl].
    - rewrite rd_items_one, rseq_text by exact Ha1. cbn [rok fst concat]. rewrite app_nil_r. now constructor.
    - rewrite rd_items_cons, rseq_text by exact Ha1. rewrite rseq_text by reflexivity.
      cbn [map rok fst concat].
      change (s2l "," ++ concat (isep ind lead st)) with ([] ++ [c_comma] ++ concat (isep ind lead st)).
      rewrite <- !app_assoc. apply GI_cons; [exact Ha2|reflexivity|now apply isep_ws|]. apply (IH b Hl).
  Qed.

  Lemma fields_g (rv : value T -> rd) st a l :
    Forall (fun kv : str * value T => snd (rv (snd kv)) = true /\ G (unsigned_form (snd kv)) (concat (fst (rv (snd kv))))) (a :: l) ->
    g_fields U X (map (fun kv => (fst kv, unsigned_form (snd kv))) (a :: l)) (concat (fst (rd_items ind lead (rd_field U st rv) st (a :: l)))).
  Proof.
    assert (Hf : forall a : str * value T, snd (rv (snd a)) = true ->
       snd (rd_field U st rv a) = true /\
       concat (fst (rd_field U st rv a)) = concat (name_chunks U (fst a)) ++ [] ++ [c_colon] ++ concat (sp st) ++ concat (fst (rv (snd a)))).
    { intros [n v] Ho. unfold rd_field. split; [rewrite rseq_true; exact Ho|]. rewrite rseq_text by reflexivity.
      cbn [fst snd rok]. rewrite !concat_app. cbn [concat]. now rewrite <- !app_assoc. }
    revert a; induction l as [|b l IH]; intros a H; inversion_clear H as [|? ? [Ha1 Ha2] Hl];
      destruct (Hf a Ha1) as [Hf1 Hf2].
    - rewrite rd_items_one, rseq_text by exact Hf1. rewrite Hf2. cbn [rok fst concat]. rewrite app_nil_r.
      cbn [map]. apply GFs_one; [apply name_chunks_g|reflexivity|apply sp_ws|exact Ha2].
    - rewrite rd_items_cons, rseq_text by exact Hf1. rewrite rseq_text by reflexivity. rewrite Hf2.
      cbn [map rok fst].
      change (concat (s2l "," :: isep ind lead st)) with ([] ++ [c_comma] ++ concat (isep ind lead st)).
      rewrite <- (app_assoc []), <- (app_assoc [c_comma]).
      apply GFs_cons; [apply name_chunks_g|reflexivity|apply sp_ws|exact Ha2|reflexivity|now apply isep_ws|].
      apply (IH b Hl).
  Qed.

  Lemma composite_g (rv : value T -> rd) st c :
    Forall (fun v => snd (rv v) = true /\ G (unsigned_form v) (concat (fst (rv v)))) (values c) ->
    g_comp U X (composite_map unsigned_form c) (concat (fst (rd_composite U ind lead st rv c))).
  Proof.
    intro H.
    destruct c as [[|a l]|[|a l]]; cbn [composite_map map values] in *.
    - cbn. apply (G_named_empty U X []). reflexivity.
    - rewrite <- (map_cons (fun kv => (fst kv, unsigned_form (snd kv))) a l).
      change (snd a :: map snd l) with (map snd (a :: l)) in H. rewrite Forall_map in H.
      cbn [rd_composite]. rewrite rseq_text by reflexivity. rewrite rseq_text.
      2:{ rewrite rd_items_ok. apply forallb_forall. rewrite Forall_forall in H. intros kv Hkv.
          unfold rd_field. rewrite rseq_true. now apply H. }
      cbn [rok fst]. rewrite concat_app.
      change (concat (s2l "{" :: isep ind lead (ins st))) with ([c_lbrace] ++ concat (isep ind lead (ins st))).
      change (concat [s2l "}"]) with [c_rbrace].
      rewrite <- (app_assoc [c_lbrace]). apply G_named; [now apply isep_ws|now apply fields_g|now apply isep_ws].
    - cbn. apply (G_unnamed_empty U X []). reflexivity.
    - rewrite <- (map_cons unsigned_form a l).
      cbn [rd_composite]. rewrite rseq_text by reflexivity. rewrite rseq_text.
      2:{ rewrite rd_items_ok. apply forallb_forall. rewrite Forall_forall in H. intros kv Hkv. now apply H. }
      cbn [rok fst]. rewrite concat_app.
      change (concat ([c_lpar] :: nl ind lead (ins st))) with ([c_lpar] ++ concat (nl ind lead (ins st))).
      change (concat [[c_rpar]]) with [c_rpar].
      rewrite <- (app_assoc [c_lpar]). apply G_unnamed; [now apply nl_ws|now apply items_g|now apply nl_ws].
  Qed.

  Lemma prim_g p : prim_wf p = true -> (forall b, p <> PU256 b) -> (forall b, p <> PI256 b) ->
    G (primitive (unsign_prim p)) (concat (fst (rd_prim p))).
  Proof.
    destruct p as [[]|c|s|n|z|b|b]; cbn [rd_prim rok fst unsign_prim]; intros Hw H1 H2.
    - cbn. apply G_bool_true.
    - cbn. apply G_bool_false.
    - apply G_char, char_chunks_g.
    - apply G_string, str_chunks_g.
    - cbn [concat]. rewrite app_nil_r. apply G_number, GN_plain; [apply show_N_digits|]. cbn in Hw. lia.
    - cbn in Hw. unfold int_chunks. destruct (z <? 0)%Z eqn:E.
      + replace (0 <=? z)%Z with false by lia. cbn [concat app]. rewrite app_nil_r.
        apply G_number. replace z with (- Z.of_N (Z.abs_N z))%Z at 1 by lia.
        apply GN_minus; [apply show_N_digits|]. lia.
      + replace (0 <=? z)%Z with true by lia. cbn [concat]. rewrite app_nil_r.
        apply G_number. replace (Z.to_N z) with (Z.abs_N z) by lia. apply GN_plain; [apply show_N_digits|]. lia.
    - now destruct (H1 b).
    - now destruct (H2 b).
  Qed.

  Lemma rendered_g (v : value T) : text_ok (is_ident U) v = true -> forall st,
    G (unsigned_form v) (concat (fst (rd_value U ind lead st v))).
  Proof.
    induction v as [l ctx IH|l ctx IH|n l ctx IH|n l ctx IH|b ctx|p ctx] using value_ind4; cbn [text_ok]; intros H st;
      cbn [rd_value rd_def unsigned_form].
    - apply G_composite. apply (composite_g _ st (Named l)). cbn [values]. rewrite Forall_map, Forall_forall.
      rewrite forallb_forall in H. rewrite Forall_forall in IH. intros kv Hkv.
      split; [rewrite rd_value_ok; eapply text_ok_no256; eauto|]. apply IH; auto.
    - apply G_composite. apply (composite_g _ st (Unnamed l)). cbn [values]. rewrite Forall_forall.
      rewrite forallb_forall in H. rewrite Forall_forall in IH. intros kv Hkv.
      split; [rewrite rd_value_ok; eapply text_ok_no256; eauto|]. apply IH; auto.
    - apply andb_true_iff in H as [Hn H]. rewrite rseq_text by reflexivity. cbn [rok fst]. rewrite concat_app, <- app_assoc.
      apply G_variant; [apply vname_chunks_g; now apply negb_true_iff|apply sp_ws|].
      apply (composite_g _ st (Named l)). cbn [values]. rewrite Forall_map, Forall_forall.
      rewrite forallb_forall in H. rewrite Forall_forall in IH. intros kv Hkv.
      split; [rewrite rd_value_ok; eapply text_ok_no256; eauto|]. apply IH; auto.
    - apply andb_true_iff in H as [Hn H]. rewrite rseq_text by reflexivity. cbn [rok fst]. rewrite concat_app, <- app_assoc.
      apply G_variant; [apply vname_chunks_g; now apply negb_true_iff|apply sp_ws|].
      apply (composite_g _ st (Unnamed l)). cbn [values]. rewrite Forall_forall.
      rewrite forallb_forall in H. rewrite Forall_forall in IH. intros kv Hkv.
      split; [rewrite rd_value_ok; eapply text_ok_no256; eauto|]. apply IH; auto.
    - cbn [rok fst]. rewrite bits_chunks_text. apply G_bits.
    - apply prim_g; [destruct p; auto; discriminate|intros b ->; discriminate|intros b ->; discriminate].
  Qed.
End Grammar.

Lemma text_roundtrip {T} U ind lead st (v : value T) rest : unicode_ok U -> ws ind -> ws lead ->
  text_ok (is_ident U) v = true -> not_followed_by num_continues rest ->
  exists t, to_text U ind lead st v = Some t /\ from_str U (t ++ rest) = (Ok (unsigned_form v), rest).
Proof.
  intros HU Hi Hl Hok Hf. rewrite to_text_render. cbn zeta. rewrite rd_value_ok, (text_ok_no256 _ _ Hok).
  eexists. split; [reflexivity|]. apply from_str_complete; auto. now apply rendered_g.
Qed.
