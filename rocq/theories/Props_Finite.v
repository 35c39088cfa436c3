(** * Props_Finite: C74, C79, C83 for every finite registry, without certificates.

    The bounds of C74 and C79 are stated with certificates about the registry.  Here: a registry with finitely many types, none of which
    contains itself without a sequence or a variant in between, has such certificates, so bounds exist for it. *)
From Verif Require Import Base Value Registry Spec_Scale Scale ScaleFacts Decode DecodeFacts Trace Spec_Cost Spec_Size SizeFacts Spec_Decode Spec_DecodeWork DecodeWork DecodeWorkFacts DecodeWorkBound TraceWork TraceWorkFacts Demo Props_Decode Props_Size Props_DecodeWork Props_TraceWork.
Open Scope N_scope.

(** All types the registry knows are in a list. *)
Definition finitely_many {TId} (reg : TId -> resolution TId) : Prop := exists known : list TId, forall t d, reg t = ResTy d -> In t known.
(** No type contains itself directly: what decoding can reach before it reads a byte ends. *)
Definition finite_types {TId} (reg : TId -> resolution TId) : Prop := forall t, Acc (inside reg) t.

Lemma largest_in l x : In x l -> x <= largest l.
Proof. induction l as [|y l IH]; intros []; cbn [largest fold_right]; fold (largest l); [lia|]. specialize (IH H). lia. Qed.
Lemma largest_map_in {A} (f : A -> N) l x : In x l -> f x <= largest (map f l).
Proof. intro H. apply largest_in, in_map, H. Qed.

Section Exist.
  Context {TId : Type} (reg : TId -> resolution TId).

  (** The types found directly in a type. *)
  Definition parts (t : TId) : list TId :=
    match reg t with
    | ResTy (TComposite fs) => map snd fs
    | ResTy (TTuple ts) => ts
    | ResTy (TArray e n) => if n =? 0 then [] else [e]
    | ResTy (TCompact e) => [e]
    | _ => []
    end.
  Lemma parts_inside t u : In u (parts t) <-> inside reg u t.
  Proof.
    unfold parts. split.
    - destruct (reg t) as [| |[fs|vs|t'|t' n|ts|p|t'|st o]] eqn:R; try contradiction.
      + intro H. apply in_map_iff in H as ([nm u'] & <- & H). eapply In_field; eauto.
      + destruct (N.eqb_spec n 0); [contradiction|]. intros [<-|[]]. eapply In_array; eauto.
      + intro H. eapply In_tuple; eauto.
      + intros [<-|[]]. eapply In_compact; eauto.
    - intros [t1 fs nm u1 R I|t1 ts u1 R I|t1 n u1 R I|t1 u1 R]; rewrite R; [exact (in_map snd _ _ I)|exact I| |left; reflexivity]. destruct (N.eqb_spec n 0); [contradiction|left; reflexivity].
  Qed.
  Lemma parts_unknown t : (forall d, reg t <> ResTy d) -> parts t = [].
  Proof. unfold parts. destruct (reg t) as [| |d]; try reflexivity. intro H. destruct (H d eq_refl). Qed.

  (** A number computed from the numbers of the parts; [fuel] bounds the nesting. *)
  Context (step : TId -> list N -> N).
  Fixpoint level (fuel : nat) (t : TId) : N :=
    match fuel with O => step t [] | S f => step t (map (level f) (parts t)) end.
  Lemma level_stable t : Acc (inside reg) t -> exists b, forall f, (b <= f)%nat -> level f t = level b t.
  Proof.
    induction 1 as [t _ IH].
    assert (B : exists b, forall u, In u (parts t) -> forall f, (b <= f)%nat -> level f u = level b u).
    { assert (H : forall u, In u (parts t) -> exists b, forall f, (b <= f)%nat -> level f u = level b u) by (intros u Hu; apply IH, parts_inside, Hu).
      clear IH. revert H. induction (parts t) as [|u l IHl]; intro H; [exists O; intros ? []|].
      destruct (H u (or_introl eq_refl)) as [b1 H1]. destruct IHl as [b2 H2]; [intros v Hv; apply H; right; exact Hv|].
      exists (Nat.max b1 b2). intros v [<-|Hv] f Hf.
      - rewrite (H1 f), (H1 (Nat.max b1 b2)) by lia. reflexivity.
      - rewrite (H2 v Hv f), (H2 v Hv (Nat.max b1 b2)) by lia. reflexivity. }
    destruct B as [b B]. exists (S b). intros f Hf. destruct f as [|f]; [lia|]. cbn [level]. f_equal. apply map_ext_in. intros u Hu. apply (B u Hu). lia.
  Qed.
  Lemma level_fixpoint : finitely_many reg -> finite_types reg -> exists h : TId -> N, forall t, h t = step t (map h (parts t)).
  Proof.
    intros [known HK] HF.
    assert (B : exists b, forall t, In t known -> forall f, (b <= f)%nat -> level f t = level b t).
    { clear HK. induction known as [|u l IHl]; [exists O; intros ? []|]. destruct (level_stable u (HF u)) as [b1 H1]. destruct IHl as [b2 H2].
      exists (Nat.max b1 b2). intros v [<-|Hv] f Hf.
      - rewrite (H1 f), (H1 (Nat.max b1 b2)) by lia. reflexivity.
      - rewrite (H2 v Hv f), (H2 v Hv (Nat.max b1 b2)) by lia. reflexivity. }
    destruct B as [b B]. exists (level b). intro t. change (step t (map (level b) (parts t))) with (level (S b) t).
    destruct (reg t) as [| |d] eqn:R.
    - assert (P : parts t = []) by (apply parts_unknown; congruence). destruct b; cbn [level]; rewrite P; reflexivity.
    - assert (P : parts t = []) by (apply parts_unknown; congruence). destruct b; cbn [level]; rewrite P; reflexivity.
    - symmetry. apply (B t (HK t d R)). lia.
  Qed.
End Exist.

(** Something that holds of each of finitely many types has a common bound. *)
Lemma common_bound {TId A} (reg : TId -> resolution TId) (of : TId -> list A) (f : A -> N) : finitely_many reg -> (forall t, (forall d, reg t <> ResTy d) -> of t = []) ->
  exists b, forall t x, In x (of t) -> f x <= b.
Proof.
  intros [known HK] HO. exists (largest (map (fun t => largest (map f (of t))) known)). intros t x Hx. destruct (reg t) as [| |d] eqn:R.
  - rewrite HO in Hx by congruence. contradiction.
  - rewrite HO in Hx by congruence. contradiction.
  - eapply N.le_trans; [apply largest_map_in, Hx|]. apply (largest_map_in (fun t => largest (map f (of t)))), (HK t d R).
Qed.

Theorem C79_ranks_exist : forall TId (reg : TId -> resolution TId), finitely_many reg -> finite_types reg -> exists h R, ranks reg h R.
Proof.
  intros TId reg FM FT. destruct (level_fixpoint reg (fun _ l => 1 + largest l) FM FT) as [h Hh].
  destruct (common_bound reg (fun t => match reg t with ResTy (TSequence e) => [e] | ResTy (TVariant vs) => concat (map (fun v => map snd (vi_fields v)) vs) | _ => [] end) h FM) as [R HR].
  { intros t H. destruct (reg t) as [| |d]; [reflexivity..|]. destruct (H d eq_refl). }
  exists h, R. constructor.
  - intros t u Hu. apply parts_inside in Hu. rewrite (Hh t). pose proof (largest_map_in h _ _ Hu). lia.
  - intros t e E. apply (HR t). rewrite E. left. reflexivity.
  - intros t vs v f E Hv Hf. apply (HR t). rewrite E. apply in_concat. exists (map snd (vi_fields v)). split; [apply (in_map (fun v => map snd (vi_fields v))), Hv|apply in_map, Hf].
Qed.
Print Assumptions C79_ranks_exist.

Theorem C79_weights_exist : forall TId (reg : TId -> resolution TId), finitely_many reg -> finite_types reg -> exists m S, call_weights reg m S.
Proof.
  intros TId reg FM FT.
  destruct (level_fixpoint reg (fun t l => 1 + match reg t with ResTy (TArray _ n) => n * total l | _ => total l end) FM FT) as [m Hm].
  destruct (common_bound reg (fun t => match reg t with ResTy (TSequence e) => [[e]] | ResTy (TVariant vs) => map (fun v => map snd (vi_fields v)) vs | _ => [] end) (fun us => total (map m us)) FM) as [S HS].
  { intros t H. destruct (reg t) as [| |d]; [reflexivity..|]. destruct (H d eq_refl). }
  exists m, S. constructor.
  - intro t. rewrite Hm. lia.
  - intros t fs E. rewrite (Hm t). unfold parts. rewrite E, map_map. apply N.le_refl.
  - intros t ts E. rewrite (Hm t). unfold parts. rewrite E. apply N.le_refl.
  - intros t e n E. rewrite (Hm t). unfold parts. rewrite E. destruct (N.eqb_spec n 0) as [->|]; cbn [map total fold_right]; lia.
  - intros t e E. rewrite (Hm t). unfold parts. rewrite E. cbn [map total fold_right]. lia.
  - intros t e E. assert (H : total (map m [e]) <= S) by (apply (HS t); rewrite E; left; reflexivity). cbn [map total fold_right] in H. lia.
  - intros t vs v E Hv. assert (H : total (map m (map snd (vi_fields v))) <= S) by (apply (HS t); rewrite E; apply (in_map (fun v => map snd (vi_fields v))), Hv). rewrite map_map in H. exact H.
Qed.
Print Assumptions C79_weights_exist.

Theorem C74_weights_exist : forall TId (reg : TId -> resolution TId), finitely_many reg -> finite_types reg -> exists m S, weights reg m S.
Proof.
  intros TId reg FM FT. destruct (C79_weights_exist TId reg FM FT) as (m & S & W). exists m, S. destruct W as [W1 W2 W3 W4 W5 W6 W7].
  constructor; try assumption. intros t e E. specialize (W5 t e E). lia.
Qed.
Print Assumptions C74_weights_exist.

(** So: for every such registry there are numbers such that, whatever the type, the bytes and the outcome, the recursion of both decoders
    is at most linear in the number of bytes ... *)
Theorem C79_depth_finite : forall TId (reg : TId -> resolution TId), finitely_many reg -> finite_types reg ->
  exists h R, forall C X (ctxf : TId -> C) fuel t bs, is_bytes bs ->
  levels (snd (kdecode reg X ctxf fuel false t bs)) <= h t + R * N.of_nat (length bs) /\
  levels (work (snd (ktrace reg X fuel [] false t bs))) <= h t + R * N.of_nat (length bs).
Proof.
  intros TId reg FM FT. destruct (C79_ranks_exist TId reg FM FT) as (h & R & HR). exists (fun t => 1 + h t), (1 + R). intros C X ctxf fuel t bs HB.
  split; [apply (C79_depth TId C reg X ctxf h R HR fuel t bs HB)|apply (C83_depth TId reg X h R HR fuel t bs HB)].
Qed.
Print Assumptions C79_depth_finite.
(** ... so both end, whatever the bytes ... *)
Theorem C79_terminates_finite : forall TId (reg : TId -> resolution TId), finitely_many reg -> finite_types reg ->
  exists h R, forall C X (ctxf : TId -> C) t bs, is_bytes bs -> forall fuel, h t + R * N.of_nat (length bs) < N.of_nat fuel ->
  decode_as_type reg X ctxf fuel t bs <> Err EHang /\ forall more, (fuel <= more)%nat -> decode_as_type reg X ctxf more t bs = decode_as_type reg X ctxf fuel t bs.
Proof.
  intros TId reg FM FT. destruct (C79_ranks_exist TId reg FM FT) as (h & R & HR). exists (fun t => 1 + h t), (1 + R). intros C X ctxf t bs HB fuel HF.
  apply (C79_terminates_within TId C reg X ctxf h R HR t bs HB fuel HF).
Qed.
Print Assumptions C79_terminates_finite.
(** ... and, unless an item of a sequence can be encoded in zero bytes, the number of calls and the size of what is decoded are at most
    linear, and the path segments copied by the tracing decoder at most quadratic. *)
Theorem C79_calls_finite : forall TId (reg : TId -> resolution TId), finitely_many reg -> finite_types reg ->
  exists m S, forall C X (ctxf : TId -> C), (forall t e, reg t = ResTy (TSequence e) -> forall v, ~ decodes reg X ctxf e [] v []) ->
  forall fuel t bs, is_bytes bs -> calls (snd (kdecode reg X ctxf fuel false t bs)) <= m t + S * N.of_nat (length bs) /\
  forall v r, decode_as_type reg X ctxf fuel t bs = Ok (v, r) -> nodes v <= m t + S * N.of_nat (length bs).
Proof.
  intros TId reg FM FT. destruct (C79_weights_exist TId reg FM FT) as (m & S & W). exists m, (2 * S). intros C X ctxf NE fuel t bs HB.
  pose proof (C79_calls_linear TId C reg X ctxf m S W NE fuel t bs HB) as H. split; [exact H|]. intros v r D. apply C79_at_least in D as [D _]. lia.
Qed.
Print Assumptions C79_calls_finite.
Theorem C83_copies_finite : forall TId (reg : TId -> resolution TId), finitely_many reg -> finite_types reg ->
  forall t, exists a, forall X, (forall t e, reg t = ResTy (TSequence e) -> forall v, ~ decodes reg X (fun t => t) e [] v []) ->
  forall fuel bs, is_bytes bs -> copied (snd (ktrace reg X fuel [] false t bs)) <= a * (1 + N.of_nat (length bs)) * (1 + N.of_nat (length bs)).
Proof.
  intros TId reg FM FT t. destruct (C79_ranks_exist TId reg FM FT) as (h & R & HR). destruct (C79_weights_exist TId reg FM FT) as (m & S & W).
  exists (5 * ((m t + 2 * S) * (1 + h t + (1 + R)))). intros X NE fuel bs HB. eapply N.le_trans; [apply (C83_copies_quadratic TId reg X h R m S HR W NE fuel t bs HB)|].
  set (n := N.of_nat (length bs)). rewrite <- !N.mul_assoc. apply N.mul_le_mono_l.
  assert (A : m t + 2 * S * n <= (m t + 2 * S) * (1 + n)) by nia. assert (B : 1 + h t + (1 + R) * n <= (1 + h t + (1 + R)) * (1 + n)) by nia.
  pose proof (N.mul_le_mono _ _ _ _ A B). nia.
Qed.
Print Assumptions C83_copies_finite.

(** ** Example: the demo registry and the recursive type. *)
Example C79_demo_finite : finitely_many demo_sz /\ finite_types demo_sz /\ finitely_many tree /\ finite_types tree.
Proof.
  split; [|split; [|split]].
  - exists (seq 0 31). intros t d R. do 31 (destruct t as [|t]; [cbn; tauto|]). discriminate R.
  - assert (H : forall n t, demo_h t < n -> Acc (inside demo_sz) t).
    { intro n. induction n as [|n IH] using N.peano_ind; intros t L; [lia|]. constructor. intros u Hu. apply IH. pose proof (r_inside _ _ _ C79_demo_ranks t u Hu). lia. }
    intro t. apply (H (1 + demo_h t)). lia.
  - exists [0%nat; 1%nat]. intros t d R. destruct t as [|[|t]]; [cbn; tauto..|discriminate].
  - exact C48_tree.
Qed.
