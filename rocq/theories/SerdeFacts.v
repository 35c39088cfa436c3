(** * SerdeFacts: facts about the serde model. *)
From Verif Require Import Base Value Spec_Value ValueFacts Scale Serde.

(** ** mapM *)
Lemma mapM_ok {A B E} (f : A -> result B E) l l' :
  mapM f l = Ok l' <-> Forall2 (fun x y => f x = Ok y) l l'.
Proof.
  revert l'. induction l as [|x l IH]; intro l'; cbn [mapM].
  - split; [intro H; injection H as <-; constructor|intro H; inversion H; reflexivity].
  - split.
    + intro H. destruct (f x) as [y|] eqn:Ef; [|discriminate]. cbn [bind] in H. destruct (mapM f l) as [ys|] eqn:Em; [|discriminate].
      cbn [rmap] in H. injection H as <-. constructor; [exact Ef|apply IH; reflexivity].
    + intro H. inversion H as [|? y ? ys Ef Hr]; subst. rewrite Ef. cbn [bind]. apply IH in Hr. rewrite Hr. reflexivity.
Qed.

Lemma mapM_ext {A B E} (f g : A -> result B E) l : (forall x, In x l -> f x = g x) -> mapM f l = mapM g l.
Proof.
  induction l as [|x l IH]; intro H; cbn [mapM]; [reflexivity|].
  rewrite H by (left; reflexivity). rewrite IH; [reflexivity|]. intros y Hy. apply H. right; exact Hy.
Qed.

Lemma mapM_map {A B C E} (g : A -> B) (f : B -> result C E) l : mapM f (map g l) = mapM (fun x => f (g x)) l.
Proof. induction l as [|x l IH]; cbn [mapM map]; [reflexivity|]. rewrite IH. reflexivity. Qed.

Lemma mapM_total {A B E} (f : A -> result B E) (g : A -> B) l : (forall x, In x l -> f x = Ok (g x)) -> mapM f l = Ok (map g l).
Proof.
  induction l as [|x l IH]; intro H; cbn [mapM map]; [reflexivity|].
  rewrite H by (left; reflexivity). cbn [bind]. rewrite IH; [reflexivity|]. intros y Hy. apply H. right; exact Hy.
Qed.

Lemma mapM_length {A B E} (f : A -> result B E) l l' : mapM f l = Ok l' -> length l' = length l.
Proof. intro H. apply mapM_ok in H. symmetry. eapply Forall2_length'; exact H. Qed.

Lemma rmap_ok {A B E} (f : A -> B) (r : result A E) y : rmap f r = Ok y <-> exists x, r = Ok x /\ y = f x.
Proof.
  destruct r as [x|e]; cbn [rmap]; split.
  - intro H. injection H as <-. eauto.
  - intros (x' & H & ->). injection H as <-. reflexivity.
  - discriminate.
  - intros (x' & H & _). discriminate.
Qed.

Lemma bind_ok {A B E} (r : result A E) (f : A -> result B E) y : bind r f = Ok y <-> exists x, r = Ok x /\ f x = Ok y.
Proof.
  destruct r as [x|e]; cbn [bind]; split.
  - eauto.
  - intros (x' & H & H'). injection H as <-. exact H'.
  - discriminate.
  - intros (x' & H & _). discriminate.
Qed.

(** ** Fuel *)
Lemma in_list_sum {A} (f : A -> nat) x l : In x l -> (f x <= list_sum (map f l))%nat.
Proof.
  induction l as [|y l IH]; intro H; [destruct H|]. cbn [map list_sum fold_right]. destruct H as [->|H]; [lia|].
  specialize (IH H). change (fold_right Nat.add 0%nat (map f l)) with (list_sum (map f l)). lia.
Qed.

Lemma vsize_eq {T} (d : vdef (value T)) ctx : vsize (Val d ctx) = S (list_sum (map vsize (children d))).
Proof.
  destruct d as [[l|l]|n [l|l]|b|p]; cbn [vsize children values]; try reflexivity; rewrite map_map; reflexivity.
Qed.

Lemma vsize_child {T} (d : vdef (value T)) ctx v : In v (children d) -> (vsize v < vsize (Val d ctx))%nat.
Proof. intro H. rewrite vsize_eq. apply (in_list_sum vsize) in H. lia. Qed.

(** The sources a visitor may descend into. *)
Definition ev_subs1 {T} (e : event T) : list (source T) :=
  match e with
  | VSome s => [s]
  | VSeq _ l => l
  | VMap l => map snd l
  | VEnum _ c => SrcComposite c :: map SrcValue (values c)
  | _ => []
  end.
Definition ev_subs {T} (e : event T) : list (source T) :=
  match e with
  | VSome s => [s]
  | VSeq _ l => l
  | VMap l => map snd l
  | VEnum _ c => SrcComposite c :: map SrcValue (values c)
  | VEnumOf _ (Some s) => s :: match deserialize s HAny with Ok e' => ev_subs1 e' | Err _ => [] end
  | _ => []
  end.

Lemma composite_any_subs {T} (c : composite (value T)) : ev_subs (composite_any c) = map SrcValue (values c).
Proof. destruct c as [l|l]; cbn [composite_any ev_subs values]; [rewrite !map_map|]; reflexivity. Qed.

Lemma csize_child {T} (c : composite (value T)) v : In v (values c) -> (vsize v <= csize c)%nat.
Proof. intro H. unfold csize. apply (in_list_sum vsize) in H. exact H. Qed.

Lemma prim_any_subs {T} p : ev_subs (prim_any (T := T) p) = [].
Proof. destruct p; reflexivity. Qed.

Lemma doc_size_seq l x : In x l -> (doc_size x < doc_size (FSeq l))%nat.
Proof. intro H. cbn [doc_size]. apply (in_list_sum doc_size) in H. lia. Qed.

Lemma doc_size_map l k x : In (k, x) l -> (doc_size x < doc_size (FMap l))%nat.
Proof. intro H. cbn [doc_size]. apply (in_list_sum (fun kv : str * doc => match kv with (_, x) => doc_size x end)) in H. lia. Qed.

Definition any_of {T} (s : source T) : event T :=
  match s with
  | SrcValue v => vdef_any (vdef_of v)
  | SrcComposite c => composite_any c
  | SrcVariant n c => VEnum n c
  | SrcPrim p => prim_any p
  | SrcBools l => VSeq true (map SrcBool l)
  | SrcBool b => VBool b
  | SrcDoc d => doc_de d
  end.

(** [deserialize_any] never fails. *)
Lemma deserialize_any_ok {T} (s : source T) : deserialize s HAny = Ok (any_of s).
Proof. destruct s as [[[c|n c|b|p] ctx]|c|n c|p|l|b|d]; reflexivity. Qed.

Lemma deserialize_ignored_ok {T} (s : source T) : deserialize s HIgnoredAny = Ok (any_of s).
Proof. destruct s as [[[c|n c|b|p] ctx]|c|n c|p|l|b|d]; reflexivity. Qed.

Lemma doc_subs1 {T} d (s' : source T) : In s' (ev_subs1 (doc_de d)) -> (src_size s' < doc_size d)%nat.
Proof.
  intro HI. destruct d as [b|sg w z|c|s|l|l| |b| | |d|n [d|]]; cbn [doc_de ev_subs1] in HI; try destruct HI; cbn [src_size].
  - apply in_map_iff in HI as (x & <- & HI). apply doc_size_seq. exact HI.
  - rewrite map_map in HI. apply in_map_iff in HI as ([k x] & <- & HI). cbn [snd src_size]. eapply doc_size_map. exact HI.
  - subst s'. cbn [src_size doc_size]. lia.
  - contradiction.
Qed.
Lemma any_subs {T} (s s' : source T) : In s' (ev_subs (any_of s)) -> (src_size s' < src_size s)%nat.
Proof.
  destruct s as [v|c|n c|p|l|b|d]; cbn [any_of]; intro HI.
  - destruct v as [d ctx]. cbn [vdef_of vdef_any] in HI. cbn [src_size]. rewrite vsize_eq. destruct d as [c|n c|b|p]; cbn [children vdef_any] in *.
    + rewrite composite_any_subs in HI.
      apply in_map_iff in HI as (v & <- & HI). cbn [src_size]. apply csize_child in HI. unfold csize in HI. lia.
    + cbn [ev_subs] in HI. destruct HI as [<-|HI]; [cbn [src_size]; unfold csize; lia|].
      apply in_map_iff in HI as (v & <- & HI). cbn [src_size]. apply csize_child in HI. unfold csize in HI. lia.
    + cbn [bits_map ev_subs map snd] in HI. destruct HI as [<-|[]]. cbn [src_size map list_sum fold_right]. lia.
    + rewrite prim_any_subs in HI. destruct HI.
  - rewrite composite_any_subs in HI. apply in_map_iff in HI as (v & <- & HI). cbn [src_size]. apply csize_child in HI. lia.
  - cbn [ev_subs] in HI. cbn [src_size]. destruct HI as [<-|HI]; [cbn [src_size]; lia|].
    apply in_map_iff in HI as (v & <- & HI). cbn [src_size]. apply csize_child in HI. lia.
  - rewrite prim_any_subs in HI. destruct HI.
  - cbn [ev_subs] in HI. apply in_map_iff in HI as (b & <- & _). cbn [src_size]. lia.
  - destruct HI.
  - destruct d as [b|sg w z|c|s|l|l| |b| | |d|n [d|]]; try (match type of HI with In _ (ev_subs (doc_de ?D)) => exact (doc_subs1 D _ HI) end).
    cbn [doc_de option_map ev_subs] in HI. cbn [src_size doc_size]. destruct HI as [<-|HI]; [cbn [src_size]; lia|].
    rewrite deserialize_any_ok in HI. apply (doc_subs1 d) in HI. lia.
Qed.

(** [Value]'s visitors only use [rec] on the sub-sources. *)
Lemma visit_composite_ext {T} (f g : source T -> result (value unit) derr) e :
  (forall s, In s (ev_subs e) -> f s = g s) -> visit_composite f e = visit_composite g e.
Proof.
  intro H. destruct e; try reflexivity; cbn [visit_composite ev_subs] in *.
  - rewrite (mapM_ext f g) by exact H. reflexivity.
  - rewrite (mapM_ext _ (fun kv => rmap (pair (fst kv)) (g (snd kv)))); [reflexivity|].
    intros kv Hk. rewrite H; [reflexivity|]. apply in_map. exact Hk.
Qed.

Lemma visit_composite_ext1 {T} (f g : source T -> result (value unit) derr) e :
  (forall s, In s (ev_subs1 e) -> f s = g s) -> visit_composite f e = visit_composite g e.
Proof. intro H. destruct e; try reflexivity; apply visit_composite_ext; exact H. Qed.
Lemma visit_valuedef_ext {T} (f g : source T -> result (value unit) derr) e :
  (forall s, In s (ev_subs e) -> f s = g s) -> visit_valuedef f e = visit_valuedef g e.
Proof.
  intro H. destruct e; try reflexivity; cbn [visit_valuedef].
  - cbn [visit_variant]. rewrite H by (left; reflexivity). reflexivity.
  - rewrite (visit_composite_ext f g) by exact H. reflexivity.
  - unfold visit_map_or_bits. destruct l as [|[k s] l]; [reflexivity|]. destruct (str_eqb k bitvec_key); [reflexivity|].
    rewrite H by (left; reflexivity). destruct (g s) as [v|]; [|reflexivity]. cbn [bind].
    rewrite (mapM_ext _ (fun kv => rmap (pair (fst kv)) (g (snd kv)))); [reflexivity|].
    intros kv Hk. rewrite H; [reflexivity|]. cbn [ev_subs map]. right. apply in_map. exact Hk.
  - cbn [visit_variant]. unfold de_composite_with. cbn [deserialize]. change (composite_de c HAny) with (Ok (E:=derr) (composite_any c)).
    cbn [bind]. rewrite (visit_composite_ext f g); [reflexivity|]. intros s Hs. apply H. rewrite composite_any_subs in Hs. right. exact Hs.
  - destruct p as [s|]; [|reflexivity]. cbn [visit_variant]. unfold de_composite_with. rewrite deserialize_any_ok. cbn [bind].
    rewrite (visit_composite_ext1 f g); [reflexivity|]. intros s' Hs. apply H. cbn [ev_subs]. rewrite deserialize_any_ok. right. exact Hs.
Qed.

Lemma de_value_fuel {T} n : forall m (s : source T), (src_size s < n)%nat -> (src_size s < m)%nat -> de_value_f n s = de_value_f m s.
Proof.
  induction n as [|n IH]; intros m s Hn Hm; [lia|]. destruct m as [|m]; [lia|]. cbn [de_value_f]. rewrite deserialize_any_ok. cbn [bind].
  rewrite (visit_valuedef_ext (de_value_f n) (de_value_f m)); [reflexivity|].
  intros s' Hs. apply any_subs in Hs. apply IH; lia.
Qed.

Theorem de_value_unfold {T} (s : source T) : de_value s = rmap (fun d => Val d tt) (visit_valuedef de_value (any_of s)).
Proof.
  unfold de_value at 1. cbn [de_value_f]. rewrite deserialize_any_ok. cbn [bind].
  rewrite (visit_valuedef_ext _ de_value); [reflexivity|]. intros s' Hs. apply any_subs in Hs. unfold de_value. apply de_value_fuel; lia.
Qed.

Lemma de_ignored_f_ok {T} n : forall s : source T, (src_size s < n)%nat -> de_ignored_f n s = Ok tt.
Proof.
  induction n as [|n IH]; intros s Hn; [lia|]. cbn [de_ignored_f]. rewrite deserialize_ignored_ok. cbn [bind].
  assert (HS : forall s', In s' (ev_subs (any_of s)) -> de_ignored_f n s' = Ok tt).
  { intros s' Hs. apply any_subs in Hs. apply IH. lia. }
  destruct (any_of s); try reflexivity; cbn [ev_subs] in HS.
  - apply HS. left; reflexivity.
  - rewrite (mapM_total _ (fun _ => tt)) by exact HS. reflexivity.
  - rewrite (mapM_total _ (fun _ => tt)); [reflexivity|]. intros kv Hk. apply HS. apply in_map. exact Hk.
  - apply HS. left; reflexivity.
  - destruct p as [s'|]; [|reflexivity]. apply HS. left; reflexivity.
Qed.

(** Anything can be skipped. *)
Theorem de_ignored_ok {T} (s : source T) : de_ignored s = Ok tt.
Proof. apply de_ignored_f_ok. lia. Qed.

(** ** [Value] from [Value] *)
Lemma visit_map_plain {T} (f : source T -> result (value unit) derr) l :
  match l with (k, _) :: _ => str_eqb k bitvec_key = false | [] => True end ->
  visit_map_or_bits f l = rmap (fun kvs => DComposite (Named kvs)) (mapM (fun kv => rmap (pair (fst kv)) (f (snd kv))) l).
Proof.
  destruct l as [|[k s] l]; cbn [visit_map_or_bits]; [reflexivity|]. intros ->. cbn [mapM fst snd].
  destruct (f s) as [v|]; [|reflexivity]. cbn [bind rmap].
  destruct (mapM _ l); reflexivity.
Qed.

Lemma de_value_prim {T} p (ctx : T) : de_value (SrcValue (Val (DPrim p) ctx)) =
  Ok (match p with PU256 b | PI256 b => unnamed_composite (map vu128 b) | _ => primitive p end).
Proof.
  rewrite de_value_unfold. destruct p; try reflexivity.
  cbn [any_of vdef_of vdef_any prim_any visit_valuedef visit_prim rmap]. rewrite N2Z.id. reflexivity.
Qed.

Lemma mapM_srcbool {T} b : mapM (de_bool (T := T)) (map SrcBool b) = Ok b.
Proof. rewrite mapM_map. rewrite (mapM_total _ (fun x => x)); [rewrite map_id; reflexivity|]. reflexivity. Qed.

Lemma de_value_bits {T} b (ctx : T) : de_value (SrcValue (Val (DBits b) ctx)) = Ok (bit_sequence b).
Proof.
  rewrite de_value_unfold. cbn [any_of vdef_of vdef_any bits_map visit_valuedef visit_map_or_bits].
  rewrite str_eqb_refl. cbn [deserialize bind visit_vec]. rewrite mapM_srcbool. reflexivity.
Qed.

Lemma de_value_unnamed {T} l (ctx : T) : de_value (SrcValue (Val (DComposite (Unnamed l)) ctx)) =
  rmap unnamed_composite (mapM (fun v => de_value (SrcValue v)) l).
Proof.
  rewrite de_value_unfold. cbn [any_of vdef_of vdef_any composite_any visit_valuedef visit_composite]. rewrite mapM_map.
  destruct (mapM _ l); reflexivity.
Qed.

Definition de_fields {T} (l : list (str * value T)) : result (list (str * value unit)) derr :=
  mapM (fun kv => rmap (pair (fst kv)) (de_value (SrcValue (snd kv)))) l.

Lemma de_value_named {T} l (ctx : T) : match l with (k, _) :: _ => str_eqb k bitvec_key = false | [] => True end ->
  de_value (SrcValue (Val (DComposite (Named l)) ctx)) = rmap named_composite (de_fields l).
Proof.
  intro H. rewrite de_value_unfold. cbn [any_of vdef_of vdef_any composite_any visit_valuedef].
  rewrite visit_map_plain by (destruct l as [|[k v] l]; [exact I|exact H]). rewrite mapM_map. unfold de_fields.
  cbn [fst snd]. destruct (mapM _ l); reflexivity.
Qed.

(** A composite read as a composite: no key is special there. *)
Definition de_comp {T} (c : composite (value T)) : result (composite (value unit)) derr :=
  match c with
  | Named l => rmap Named (de_fields l)
  | Unnamed l => rmap Unnamed (mapM (fun v => de_value (SrcValue v)) l)
  end.

Lemma visit_composite_any {T} (c : composite (value T)) : visit_composite de_value (composite_any c) = de_comp c.
Proof. destruct c as [l|l]; cbn [composite_any visit_composite de_comp]; rewrite mapM_map; reflexivity. Qed.

Lemma de_composite_eq {T} (c : composite (value T)) : de_composite (SrcComposite c) = de_comp c.
Proof. unfold de_composite, de_composite_with. rewrite deserialize_any_ok. cbn [bind any_of]. apply visit_composite_any. Qed.

Lemma de_value_variant {T} n c (ctx : T) : de_value (SrcValue (Val (DVariant n c) ctx)) =
  rmap (fun c' => Val (DVariant n c') tt) (de_comp c).
Proof.
  rewrite de_value_unfold. cbn [any_of vdef_of vdef_any visit_valuedef visit_variant].
  change (de_composite_with de_value (SrcComposite c)) with (de_composite (SrcComposite c)). rewrite de_composite_eq.
  destruct (de_comp c); reflexivity.
Qed.
