(** * ReadsFacts: the rules of Spec_Reads describe [from_value] exactly. *)
From Verif Require Import Base Value Spec_Value ValueFacts Scale Spec_Scale ScaleFacts Serde SerdeFacts Spec_Serde SerdeRt SerdeUni SerdeMore SerdeTargets SerdeTargets2
  Spec_Parts SerdeParts Spec_Maps SerdeMaps Props_Maps Spec_Reads.

(** The deserializer at a place. *)
Definition src {T} (p : place T) : option (source T) :=
  match p with
  | AtValue v => Some (SrcValue v)
  | InNewtype (DComposite c) => Some (SrcComposite c)
  | InNewtype (DVariant n c) => Some (SrcVariant n c)
  | InNewtype (DPrim q) => Some (SrcPrim q)
  | InNewtype (DBits _) => None
  | AtBits l => Some (SrcBools l)
  | AtBit b => Some (SrcBool b)
  end.

Definition exactly (T : Type) (t : ty) : Prop := forall (p : place T) s x, src p = Some s -> (de t s = Ok x <-> reads t p x).

Ltac places p Hs :=
  let c := fresh "c" in let n := fresh "n" in let b := fresh "b" in let q := fresh "q" in let ctx := fresh "ctx" in let l := fresh "l" in
  destruct p as [[[c|n c|b|q] ctx]|[c|n c|b|q]|l|b]; cbn [src] in Hs; try discriminate Hs; injection Hs as <-.

Lemma ex_bool T : exactly T TyBool.
Proof.
  intros p s x Hs. split; intro H.
  - places p Hs; cbn in H; try (destruct c); try (destruct q); try discriminate H; injection H as <-; constructor; reflexivity.
  - inversion H; subst. match goal with E' : prim_at p = _ |- _ => rename E' into E end. places p Hs; cbn in E; try discriminate E; injection E as ->; reflexivity.
Qed.

Ltac same := match goal with H : Some _ = Some _ |- _ => injection H; clear H; intros; subst end.
Ltac inv H := inversion H; subst; clear H.

Lemma ex_unit T : exactly T TyUnit.
Proof.
  intros p s x Hs. split; intro H.
  - places p Hs; cbn in H; try (destruct c as [[|? ?]|[|? ?]]); try (destruct q); try discriminate H; injection H as <-; econstructor; reflexivity.
  - inv H. places p Hs; cbn in *; try discriminate; same; match goal with H : values ?c = [] |- _ => destruct c as [[|? ?]|[|? ?]] end; try discriminate; reflexivity.
Qed.

Lemma ex_unit_struct T : exactly T TyUnitStruct.
Proof.
  intros p s x Hs. split; intro H.
  - places p Hs; cbn in H; try (destruct c as [[|? ?]|[|? ?]]); try (destruct q); try discriminate H; injection H as <-; econstructor; reflexivity.
  - inv H. places p Hs; cbn in *; try discriminate; same; match goal with H : values ?c = [] |- _ => destruct c as [[|? ?]|[|? ?]] end; try discriminate; reflexivity.
Qed.

Lemma prim_int {T} sg w q z : visit_int sg w (prim_de (T := T) q (HInt sg w)) = Ok z <-> integer_in q = Some z /\ int_range sg w z.
Proof.
  rewrite <- in_int_range.
  assert (H : forall y (E : integer_in q = Some y), visit_int sg w (if in_int sg w y then VInt sg w y else prim_any (T := T) q) = Ok z <-> Some y = Some z /\ in_int sg w z = true).
  { intros y E. destruct (in_int sg w y) eqn:I.
    - cbn [visit_int]. rewrite I. replace ((w =? 128)%N && negb (w =? 128)%N) with false by (destruct (w =? 128)%N; reflexivity).
      split; [intro H; injection H as <-; now split|]. intros [H _]. now injection H as ->.
    - split; [|intros [H K]; injection H as ->; congruence]. intro H. exfalso. destruct q; try discriminate E; injection E as <-; cbn [prim_any visit_int] in H; destruct (_ && _) in H; try discriminate H; rewrite I in H; discriminate H. }
  destruct q; cbn [prim_de integer_in]; try (split; [discriminate|intros [? _]; discriminate]); apply (H _ eq_refl).
Qed.

Lemma ex_int T sg w : exactly T (TyInt sg w).
Proof.
  intros p s x Hs. cbn [de]. rewrite rmap_ok.
  assert (C : forall c, forall z, visit_int sg w (composite_any (T := T) c) <> Ok z) by (intros [l|l] z; discriminate).
  split.
  - intros (z & H & ->). places p Hs; cbn [deserialize vdef_of vdef_de bind composite_de variant_de bits_de doc_de] in H; try discriminate H;
      try (destruct (C _ _ H)); apply prim_int in H as [H1 H2]; econstructor; try eassumption; reflexivity.
  - intro H. inv H. exists z. split; [|reflexivity].
    places p Hs; cbn in *; try discriminate; same; try discriminate; apply (prim_int (T := T)); now split.
Qed.

Lemma ex_char T : exactly T TyChar.
Proof.
  intros p s x Hs. split; intro H.
  - places p Hs; cbn in H; try (destruct c); try (destruct q as [?|?|[|? [|? ?]]|?|?|?|?]); try discriminate H; injection H as <-; econstructor; cbn; auto.
  - inv H. match goal with H : _ \/ _ |- _ => destruct H as [E|E] end; places p Hs; cbn in E; try discriminate E; injection E as ->; reflexivity.
Qed.

Lemma ex_string T : exactly T TyString.
Proof.
  intros p s x Hs. split; intro H.
  - places p Hs; cbn in H; try (destruct c); try (destruct q as [?|?|?|?|?|?|?]); cbn in H; try discriminate H;
      try (destruct (utf8_decode _) eqn:E in H; [|discriminate H]; apply utf8_decode_iff in E as [-> E]); injection H as <-;
      first [now apply R_string|now apply R_string_char|eapply R_string_256; [reflexivity|reflexivity|exact E]].
  - inv H.
    + places p Hs; cbn in *; try discriminate; same; reflexivity.
    + places p Hs; cbn in *; try discriminate; same; reflexivity.
    + match goal with H1 : prim_at p = Some ?q, H2 : bytes_in ?q = Some (utf8 ?s0), H3 : forallb _ _ = true |- _ =>
        assert (D : utf8_decode (utf8 s0) = Some s0) by (apply utf8_decode_iff; now split); remember (utf8 s0) as u eqn:Eu; clear Eu; rename H1 into E1; rename H2 into E2 end.
      assert (R : de TyString s = rmap XString (visit_string (T := T) (VBytes u))).
      { places p Hs; cbn [prim_at def_at vdef_of] in E1; try discriminate E1; injection E1 as <-; try discriminate E2; destruct q0; try discriminate E2; injection E2 as <-; reflexivity. }
      rewrite R. cbn [visit_string]. rewrite D. reflexivity.
Qed.

Lemma bytes_list {T} (l : list (value T)) bs :
  mapM (fun v => match vdef_of v with DPrim (PU128 n) => if (n <? 256)%N then Ok n else Err DCustom | _ => Err DCustom end) l = Ok bs <->
  Forall2 (fun v b => vdef_of v = DPrim (PU128 b) /\ (b < 256)%N) l bs.
Proof.
  rewrite Forall2_mapM. apply Forall2_iff. intros v b. destruct (vdef_of v) as [c|n c|b'|q]; try (split; [discriminate|intros [? _]; discriminate]).
  destruct q; try (split; [discriminate|intros [? _]; discriminate]). destruct (n <? 256)%N eqn:E.
  - apply N.ltb_lt in E. split; [intro H; injection H as <-; now split|]. intros [H _]. now injection H as ->.
  - apply N.ltb_ge in E. split; [discriminate|]. intros [H L]. injection H as ->. lia.
Qed.

Lemma composite_bytes_reads {T} (c : composite (value T)) x :
  bind (composite_bytes c) (fun e => match e with VBytes b => Ok (XBytes b) | VSeq _ l => rmap (fun b => XBytes (map Z.to_N b)) (mapM de_u8 l) | _ => Err DType end) = Ok x <->
  exists bs, x = XBytes bs /\ Forall2 (fun v b => vdef_of v = DPrim (PU128 b) /\ (b < 256)%N) (values c) bs.
Proof.
  unfold composite_bytes. rewrite bind_ok. split.
  - intros (e & H & K). apply bind_ok in H as (bs & H & E). injection E as <-. injection K as <-. exists bs. split; [reflexivity|]. now apply bytes_list.
  - intros (bs & -> & F). apply bytes_list in F. exists (VBytes bs). split; [|reflexivity]. apply bind_ok. exists bs. now split.
Qed.

Lemma ex_bytes T : exactly T TyBytes.
Proof.
  intros p s x Hs. split; intro H.
  - places p Hs; cbn [de deserialize vdef_of vdef_de composite_de variant_de bits_de] in H; try discriminate H;
      try (apply composite_bytes_reads in H as (bs & -> & F); eapply R_bytes; [reflexivity|exact F]).
    + destruct q; cbn in H; try discriminate H; injection H as <-; eapply R_bytes_256; reflexivity.
    + destruct q; cbn in H; try discriminate H; injection H as <-; eapply R_bytes_256; reflexivity.
    + destruct l as [|b l]; cbn in H; [injection H as <-; constructor|discriminate H].
  - inv H.
    + places p Hs; cbn [composite_at def_at vdef_of] in *; try discriminate; same;
        cbn [de deserialize vdef_of vdef_de composite_de]; apply composite_bytes_reads; eauto.
    + places p Hs; cbn in *; try discriminate; same; try discriminate; match goal with H : bytes_in ?q = _ |- _ => destruct q; try discriminate H; cbn in H; injection H; clear H; intros; subst end; reflexivity.
    + cbn [src] in Hs. injection Hs as <-. reflexivity.
Qed.

(** ** Lists of parts *)
Definition linked {T} (ps : list (place T)) (ss : list (source T)) : Prop := Forall2 (fun q s => src q = Some s) ps ss.

Lemma linked_values {T} (l : list (value T)) : linked (map AtValue l) (map SrcValue l).
Proof. induction l; constructor; [reflexivity|exact IHl]. Qed.

Lemma linked_bits {T} (l : list bool) : linked (T := T) (map AtBit l) (map SrcBool l).
Proof. induction l; constructor; [reflexivity|exact IHl]. Qed.

Lemma F3_len {A B C} (R : A -> B -> C -> Prop) la lb lc : Forall3 R la lb lc -> length la = length lb /\ length la = length lc.
Proof. induction 1 as [|a b c la lb lc H F [IH1 IH2]]; cbn [length]; [now split|]. split; congruence. Qed.

Lemma linked_len {T} (ps : list (place T)) ss : linked ps ss -> length ps = length ss.
Proof. induction 1; cbn [length]; congruence. Qed.

Lemma take3 {T A} (fs : list (source T -> result A derr)) : forall l xs rest,
  seq_take fs l = Ok (xs, rest) <-> exists used, l = used ++ rest /\ Forall3 (fun f s x => f s = Ok x) fs used xs.
Proof.
  induction fs as [|f fs IH]; intros l xs rest; cbn [seq_take].
  - split.
    + intro H. injection H as <- <-. exists []. split; [reflexivity|constructor].
    + intros (u & -> & F). inv F. reflexivity.
  - destruct l as [|s l].
    + split; [discriminate|]. intros (u & E & F). inv F. discriminate E.
    + rewrite bind_ok. split.
      * intros (x & Hx & H). apply bind_ok in H as ([ys r] & H & E). cbn [fst snd] in E. injection E as <- <-. apply IH in H as (u & -> & F). exists (s :: u). split; [reflexivity|]. now constructor.
      * intros (u & E & F). inv F. cbn [app] in E. injection E as <- ->. match goal with H : f s = Ok ?c |- _ => exists c; split; [exact H|] end.
        apply bind_ok. eexists (_, rest). split; [apply IH; eexists; split; [reflexivity|eassumption]|reflexivity].
Qed.

Lemma elems3 {T A} (fs : list (source T -> result A derr)) strict l xs :
  visit_elems fs (VSeq strict l) = Ok xs <-> exists used rest, l = used ++ rest /\ (strict = true -> rest = []) /\ Forall3 (fun f s x => f s = Ok x) fs used xs.
Proof.
  cbn [visit_elems]. rewrite bind_ok. split.
  - intros ([ys rest] & H & E). cbn [fst snd] in E. apply take3 in H as (u & -> & F). exists u, rest. split; [reflexivity|].
    destruct rest as [|r rest]; [injection E as <-; now split|]. destruct strict; [discriminate|]. injection E as <-. split; [discriminate|exact F].
  - intros (u & rest & -> & S & F). exists (xs, rest). split; [apply take3; eauto|]. cbn [fst snd]. destruct rest as [|r rest]; [reflexivity|]. destruct strict; [discriminate (S eq_refl)|reflexivity].
Qed.

Lemma elems_all {T A} (fs : list (source T -> result A derr)) strict l xs : length l = length fs ->
  visit_elems fs (VSeq strict l) = Ok xs <-> Forall3 (fun f s x => f s = Ok x) fs l xs.
Proof.
  intro L. rewrite elems3. split.
  - intros (u & rest & -> & _ & F). pose proof (F3_len _ _ _ _ F) as [L1 _]. rewrite app_length in L. destruct rest; [now rewrite app_nil_r|cbn [length] in L; lia].
  - intro F. exists l, []. rewrite app_nil_r. auto.
Qed.

Lemma exact_list {T} ts : Forall (exactly T) ts -> forall (ps : list (place T)) ss xs, linked ps ss -> Forall3 (fun f s x => f s = Ok x) (map de ts) ss xs <-> Forall3 (reads (T := T)) ts ps xs.
Proof.
  induction 1 as [|t ts E F IH]; intros ps ss xs L; cbn [map].
  - split; intro H; inv H; inv L; constructor.
  - split; intro H; inv H; inv L; constructor; try (eapply IH; eassumption); eapply E; eassumption.
Qed.

Lemma exact_vec {T} t : exactly T t -> forall (ps : list (place T)) ss xs, linked ps ss -> mapM (de t) ss = Ok xs <-> Forall2 (reads t) ps xs.
Proof.
  intros E ps ss xs L. rewrite Forall2_mapM. revert xs. induction L as [|q s ps ss Hq L IH]; intro xs; split; intro H; inv H; constructor; try (eapply IH; eassumption); eapply E; eassumption.
Qed.

Lemma seq_at {T} (p : place T) s : src p = Some s ->
  match parts_at p with
  | Some ps => exists strict ss, linked ps ss /\ deserialize s HSeq = Ok (VSeq strict ss)
  | None => forall A (f : source T -> result A derr) l, bind (deserialize s HSeq) (visit_vec f) <> Ok l
  end.
Proof.
  intro Hs. places p Hs; cbn [parts_at fields_at def_at vdef_of deserialize vdef_de variant_de composite_de bits_de prim_de];
    try (do 2 eexists; split; [apply linked_values|reflexivity]); try (do 2 eexists; split; [apply linked_bits|reflexivity]); intros A f l; try (destruct q); discriminate.
Qed.

Lemma tuple_at {T} (p : place T) s n : src p = Some s ->
  match parts_at p with
  | Some ps => exists ss, linked ps ss /\ forall A (fs : list (source T -> result A derr)) xs, length fs = n ->
      (bind (deserialize s (HTuple n)) (visit_elems fs) = Ok xs <-> Forall3 (fun f s x => f s = Ok x) fs ss xs) /\
      (bind (deserialize s (HTupleStruct n)) (visit_elems fs) = Ok xs <-> Forall3 (fun f s x => f s = Ok x) fs ss xs)
  | None => forall A (fs : list (source T -> result A derr)) l, bind (deserialize s (HTuple n)) (visit_elems fs) <> Ok l /\ bind (deserialize s (HTupleStruct n)) (visit_elems fs) <> Ok l
  end.
Proof.
  intro Hs.
  assert (C : forall c : composite (value T), forall A (fs : list (source T -> result A derr)) xs, length fs = n ->
      bind (if Nat.eqb (clen c) n then Ok (VSeq false (map SrcValue (values c))) else Err DCustom) (visit_elems fs) = Ok xs <-> Forall3 (fun f s x => f s = Ok x) fs (map SrcValue (values c)) xs).
  { intros c A fs xs L. assert (LC : clen c = length (map SrcValue (values c))) by (rewrite map_length; destruct c; cbn [clen values]; [now rewrite map_length|reflexivity]).
    destruct (Nat.eqb_spec (clen c) n) as [E|E]; cbn [bind].
    - apply elems_all. congruence.
    - split; [discriminate|]. intro F. apply F3_len in F as [F _]. congruence. }
  places p Hs; cbn [parts_at fields_at def_at vdef_of deserialize vdef_de variant_de composite_de bits_de prim_de];
    try (eexists; split; [apply linked_values|]; intros A fs xs L; split; now apply C);
    try (intros A f l; split; try (destruct q); discriminate).
  eexists. split; [apply linked_bits|]. intros A fs xs L. assert (X : visit_elems fs (VSeq true (map (SrcBool (T := T)) l)) = Ok xs <-> Forall3 (fun f s x => f s = Ok x) fs (map SrcBool l) xs); [|now split].
  rewrite elems3. split.
  - intros (u & r & E & S & F). rewrite (S eq_refl), app_nil_r in E. now rewrite E.
  - intro F. eexists _, []. rewrite app_nil_r. split; [reflexivity|]. now split.
Qed.

Lemma ex_vec T t : exactly T t -> exactly T (TyVec t).
Proof.
  intros E p s x Hs. cbn [de]. rewrite rmap_ok. pose proof (seq_at p s Hs) as A. split.
  - intros (l & H & ->). destruct (parts_at p) as [ps|] eqn:P; [|destruct (A _ _ _ H)]. destruct A as (strict & ss & L & D). rewrite D in H. cbn [bind visit_vec] in H.
    eapply R_vec; [exact P|]. eapply exact_vec; eassumption.
  - intro H. inv H. match goal with H : parts_at p = Some _ |- _ => rewrite H in A end. destruct A as (strict & ss & L & D). rewrite D. cbn [bind visit_vec]. eexists. split; [|reflexivity]. eapply exact_vec; eassumption.
Qed.

Lemma ex_tuple T ts : Forall (exactly T) ts -> exactly T (TyTuple ts).
Proof.
  intros E p s x Hs. cbn [de]. rewrite rmap_ok. pose proof (tuple_at p s (length ts) Hs) as A. split.
  - intros (l & H & ->). destruct (parts_at p) as [ps|] eqn:P; [|destruct (proj1 (A _ _ _) H)]. destruct A as (ss & L & D). apply D in H; [|apply map_length].
    eapply R_tuple; [exact P|]. eapply exact_list; eassumption.
  - intro H. inv H. match goal with H : parts_at p = Some _ |- _ => rewrite H in A end. destruct A as (ss & L & D). eexists. split; [|reflexivity]. apply D; [apply map_length|]. eapply exact_list; eassumption.
Qed.

Lemma ex_tuple_struct T ts : Forall (exactly T) ts -> exactly T (TyTupleStruct ts).
Proof.
  intros E p s x Hs. cbn [de]. rewrite rmap_ok. pose proof (tuple_at p s (length ts) Hs) as A. split.
  - intros (l & H & ->). destruct (parts_at p) as [ps|] eqn:P; [|destruct (proj2 (A _ _ _) H)]. destruct A as (ss & L & D). apply D in H; [|apply map_length].
    eapply R_tuple_struct; [exact P|]. eapply exact_list; eassumption.
  - intro H. inv H. match goal with H : parts_at p = Some _ |- _ => rewrite H in A end. destruct A as (ss & L & D). eexists. split; [|reflexivity]. apply D; [apply map_length|]. eapply exact_list; eassumption.
Qed.

Lemma ex_option T t : exactly T t -> exactly T (TyOption t).
Proof.
  intros E p s x Hs. destruct p as [v|d|l|b].
  - cbn [src] in Hs. injection Hs as <-. change (de (TyOption t) (SrcValue v)) with (from_value (TyOption t) v). rewrite de_option_spec. split.
    + intros [[H ->]|(w & y & H & K & ->)]; [now apply R_none|]. eapply R_some; [exact H|]. now apply (E (AtValue w) (SrcValue w)).
    + intro H. inv H; [left; now split|right]. do 2 eexists. split; [eassumption|]. split; [|reflexivity]. unfold from_value. match goal with H : reads t (AtValue ?w) _ |- _ => apply (E (AtValue w)); [reflexivity|exact H] end.
  - split; [|intro H; inv H]. destruct d as [c|n c|b|q]; cbn [src] in Hs; try discriminate Hs; injection Hs as <-; cbn [de deserialize composite_de variant_de prim_de bind];
      [destruct c; discriminate|discriminate|destruct q; discriminate].
  - cbn [src] in Hs. injection Hs as <-. split; [discriminate|intro H; inv H].
  - cbn [src] in Hs. injection Hs as <-. split; [discriminate|intro H; inv H].
Qed.

Lemma ex_newtype T t : exactly T t -> exactly T (TyNewtype t).
Proof.
  intros E p s x Hs.
  assert (ONE : forall strict (s' : source T), rmap (fun l => XNewtype (match l with y :: _ => y | [] => XUnit end)) (visit_elems [de t] (VSeq strict [s'])) = Ok x <-> exists y, x = XNewtype y /\ de t s' = Ok y).
  { intros strict s'. rewrite rmap_ok. split.
    - intros (l & H & ->). apply elems_all in H; [|reflexivity]. inv H. match goal with H : Forall3 _ [] [] _ |- _ => inv H end. eauto.
    - intros (y & -> & H). exists [y]. split; [|reflexivity]. apply elems_all; [reflexivity|]. constructor; [exact H|constructor]. }
  assert (G : forall q s', src q = Some s' -> content_at p = Some q -> (exists y, x = XNewtype y /\ de t s' = Ok y) <-> reads (TyNewtype t) p x).
  { intros q s' Hq HC. split.
    - intros (y & -> & H). eapply R_newtype; [exact HC|]. eapply E; eassumption.
    - intro H. inv H. match goal with H : content_at p = Some _ |- _ => rewrite HC in H; injection H as <- end. eexists. split; [reflexivity|]. eapply E; eassumption. }
  assert (N : content_at p = None -> (False <-> reads (TyNewtype t) p x)). { intro HC. split; [intros []|]. intro H. inv H. congruence. }
  cbn [de]. places p Hs; cbn [deserialize vdef_of vdef_de composite_de variant_de prim_de bits_de bind].
  - rewrite ONE. apply (G (InNewtype (DComposite c))); reflexivity.
  - rewrite ONE. apply (G (InNewtype (DVariant n c))); reflexivity.
  - rewrite <- (N eq_refl). split; [discriminate|intros []].
  - rewrite ONE. apply (G (InNewtype (DPrim q))); reflexivity.
  - rewrite ONE. apply (G (InNewtype (DComposite c))); reflexivity.
  - rewrite ONE. apply (G (InNewtype (DVariant n c))); reflexivity.
  - rewrite ONE. apply (G (InNewtype (DPrim q))); reflexivity.
  - destruct l as [|b [|b' l]]; cbn [map].
    + rewrite <- (N eq_refl). split; [discriminate|intros []].
    + rewrite ONE. apply (G (AtBit b)); reflexivity.
    + rewrite <- (N eq_refl). split; [|intros []]. cbn [visit_elems seq_take]. destruct (de t (SrcBool b)); discriminate.
  - rewrite <- (N eq_refl). split; [discriminate|intros []].
Qed.

(** ** Maps *)
Lemma map_at {T} (p : place T) s : src p = Some s ->
  match fields_at p with
  | Some (Named l) => deserialize s HMap = Ok (VMap (map (fun kv => (fst kv, SrcValue (snd kv))) l))
  | _ => p <> AtBits [] -> match deserialize s HMap with Ok (VMap _) => False | _ => True end
  end.
Proof. intro Hs. places p Hs; try (destruct c as [l|l]); try (destruct q); cbn; trivial. Qed.

Lemma collects_built kvs m : collects kvs m <-> m = built kvs.
Proof.
  destruct (built_spec kvs) as [R B]. unfold collects. split.
  - intros [S H]. apply rises_unique; [now apply rises_sorted|exact R|]. intros k x. rewrite B. apply H.
  - intros ->. split; [now apply rises_sorted|exact B].
Qed.

Lemma entries_read {T} t (l : list (str * value T)) kvs : exactly T t ->
  mapM (fun kv : str * source T => rmap (pair (fst kv)) (de t (snd kv))) (map (fun kv => (fst kv, SrcValue (snd kv))) l) = Ok kvs <->
  Forall2 (fun kv kx => fst kx = fst kv /\ reads t (AtValue (snd kv)) (snd kx)) l kvs.
Proof.
  intro E. rewrite mapM_map, Forall2_mapM. apply Forall2_iff. intros [k v] [k' x]. cbn [fst snd]. rewrite rmap_ok. split.
  - intros (y & H & K). injection K as -> ->. split; [reflexivity|]. now apply (E (AtValue v) (SrcValue v)).
  - intros [-> H]. exists x. split; [|reflexivity]. now apply (E (AtValue v) (SrcValue v)).
Qed.

Lemma ex_map T t : exactly T t -> exactly T (TyMap t).
Proof.
  intros E p s x Hs. cbn [de]. pose proof (map_at p s Hs) as A.
  assert (N : (forall l, fields_at p <> Some (Named l)) -> ~ reads (TyMap t) p x) by (intros N H; inv H; eapply N; eassumption).
  assert (D : bind (deserialize s HMap) (fun e => match e with
        | VMap l => rmap (fun kvs => XMap (fold_left (fun m kv => map_insert (fst kv) (snd kv) m) kvs [])) (mapM (fun kv => rmap (pair (fst kv)) (de t (snd kv))) l)
        | _ => Err DType end) = Ok x -> exists l, deserialize s HMap = Ok (VMap l)).
  { intro H. destruct (deserialize s HMap) as [[]|]; try discriminate H. eauto. }
  split.
  - intro H. destruct (D H) as [l' D']. destruct (fields_at p) as [[l|l]|] eqn:F.
    + rewrite A in H. cbn [bind] in H. apply rmap_ok in H as (kvs & H & ->). apply entries_read in H; [|exact E]. eapply R_map; [exact F|exact H|]. now apply collects_built.
    + exfalso. rewrite D' in A. apply A. intros ->. cbn in F. discriminate F.
    + exfalso. rewrite D' in A. apply A. intros ->. cbn in Hs. injection Hs as <-. discriminate H.
  - intro H. inv H. match goal with H : fields_at p = _ |- _ => rewrite H in A end. rewrite A. cbn [bind].
    match goal with H : collects _ _ |- _ => apply collects_built in H; subst end. apply rmap_ok. eexists. split; [|reflexivity]. now apply entries_read.
Qed.

Lemma ex_map_char T t : exactly T t -> exactly T (TyMapChar t).
Proof.
  intros E p s x Hs. cbn [de]. pose proof (map_at p s Hs) as A.
  assert (K : forall (l : list (str * value T)) kvs, mapM (fun kv : str * source T => bind (visit_char (T := T) (VString (fst kv))) (fun c => rmap (pair [c]) (de t (snd kv)))) (map (fun kv => (fst kv, SrcValue (snd kv))) l) = Ok kvs <->
     Forall (fun kv => exists c, fst kv = [c]) l /\ Forall2 (fun kv kx => fst kx = fst kv /\ reads t (AtValue (snd kv)) (snd kx)) l kvs).
  { intros l. induction l as [|[k v] l IH]; intro kvs; cbn [map mapM fst snd].
    - split; [intro H; injection H as <-; split; constructor|intros [_ H]; inv H; reflexivity].
    - rewrite bind_ok. split.
      + intros (y & Hy & H). apply rmap_ok in H as (ys & H & ->). apply IH in H as [H1 H2]. apply bind_ok in Hy as (c & Hc & Hy). apply rmap_ok in Hy as (z & Hy & ->).
        assert (k = [c]) as -> by (cbn [visit_char] in Hc; destruct k as [|a [|b k]]; try discriminate Hc; now injection Hc as ->).
        split; constructor; [now exists c|exact H1| |exact H2]. cbn [fst snd]. split; [reflexivity|]. now apply (E (AtValue v) (SrcValue v)).
      + intros [H1 H2]. inv H1. inv H2. match goal with H : exists c, _ = [c] |- _ => destruct H as [c Hc]; cbn [fst] in Hc; subst k end.
        match goal with H : _ /\ _ |- _ => destruct H as [Hk Hr] end. cbn [fst snd] in *. destruct y as [k' z]. cbn [fst snd] in *. subst k'.
        exists ([c], z). split; [|apply rmap_ok; eexists; split; [apply IH; split; eassumption|reflexivity]]. cbn [visit_char bind]. apply rmap_ok. exists z. split; [|reflexivity]. now apply (E (AtValue v) (SrcValue v)). }
  assert (D : bind (deserialize s HMap) (fun e => match e with
        | VMap l => rmap (fun kvs => XMap (fold_left (fun m kv => map_insert (fst kv) (snd kv) m) kvs [])) (mapM (fun kv => bind (visit_char (T := T) (VString (fst kv))) (fun c => rmap (pair [c]) (de t (snd kv)))) l)
        | _ => Err DType end) = Ok x -> exists l, deserialize s HMap = Ok (VMap l)).
  { intro H. destruct (deserialize s HMap) as [[]|]; try discriminate H. eauto. }
  split.
  - intro H. destruct (D H) as [l' D']. destruct (fields_at p) as [[l|l]|] eqn:F.
    + rewrite A in H. cbn [bind] in H. apply rmap_ok in H as (kvs & H & ->). apply K in H as [H1 H2]. eapply R_map_char; [exact F|exact H1|exact H2|]. now apply collects_built.
    + exfalso. rewrite D' in A. apply A. intros ->. cbn in F. discriminate F.
    + exfalso. rewrite D' in A. apply A. intros ->. cbn in Hs. injection Hs as <-. discriminate H.
  - intro H. inv H. match goal with H : fields_at p = _ |- _ => rewrite H in A end. rewrite A. cbn [bind].
    match goal with H : collects _ _ |- _ => apply collects_built in H; subst end. apply rmap_ok. eexists. split; [|reflexivity]. apply K. now split.
Qed.

(** ** Structs *)
Definition linked_entries {T} (l : list (str * place T)) (L : list (str * source T)) : Prop := Forall2 (fun kq ks => fst ks = fst kq /\ src (snd kq) = Some (snd ks)) l L.

Lemma entries_fst {T} (l : list (str * place T)) L : linked_entries l L -> map fst L = map fst l.
Proof. induction 1 as [|a b l L [H _] F IH]; cbn [map]; congruence. Qed.

Lemma entries_in {T} (l : list (str * place T)) L k q : linked_entries l L -> In (k, q) l -> exists s, In (k, s) L /\ src q = Some s.
Proof.
  induction 1 as [|[k1 q1] [k2 s2] l L [H1 H2] F IH]; intros []; cbn [fst snd] in *.
  - injection H as -> ->. subst k2. exists s2. split; [now left|exact H2].
  - destruct (IH H) as (s & ? & ?). exists s. split; [now right|assumption].
Qed.

Lemma entries_in' {T} (l : list (str * place T)) L k s : linked_entries l L -> In (k, s) L -> exists q, In (k, q) l /\ src q = Some s.
Proof.
  induction 1 as [|[k1 q1] [k2 s2] l L [H1 H2] F IH]; intros []; cbn [fst snd] in *.
  - injection H as -> ->. subst k1. exists q1. split; [now left|exact H2].
  - destruct (IH H) as (q & ? & ?). exists q. split; [now right|assumption].
Qed.

Lemma known_among {A} (fs : list (str * A)) ks : filter (known fs) ks = among (map fst fs) ks.
Proof.
  unfold among. apply filter_ext. intro k. unfold known. induction fs as [|[n t] fs IH]; [reflexivity|]. cbn [find_field map fst existsb]. destruct (str_eqb k n); [reflexivity|exact IH].
Qed.

Lemma F2_in {A B} (P Q : A -> B -> Prop) l l' : (forall x y, In x l -> P x y -> Q x y) -> Forall2 P l l' -> Forall2 Q l l'.
Proof. intros H F. induction F; constructor; [apply H; [now left|assumption]|]. apply IHF. intros. apply H; [now right|assumption]. Qed.

Lemma F2_left {A B} (P : A -> B -> Prop) l l' x : Forall2 P l l' -> In x l -> exists y, In y l' /\ P x y.
Proof.
  induction 1 as [|a b l l' H F IH]; intros []; [subst; exists b; split; [now left|exact H]|]. destruct (IH H0) as (y & ? & ?). exists y. split; [now right|assumption].
Qed.

(** Structs from named entries, whatever the entries are. *)
Lemma struct_named {T} (fs : list (str * ty)) (L : list (str * source T)) ds : NoDup (map fst fs) ->
  visit_struct (map (fun nt => match nt with (n, t') => (n, de t') end) fs) (map (fun nt => match nt with (n, t') => (n, missing t') end) fs) (VMap L) = Ok ds <->
  NoDup (among (map fst fs) (map fst L)) /\
  Forall2 (fun ft nd => fst nd = fst ft /\
    ((exists s, In (fst ft, s) L /\ de (snd ft) s = Ok (snd nd)) \/ (~ In (fst ft) (map fst L) /\ missing (snd ft) = Ok (snd nd)))) fs ds.
Proof.
  intro ND. cbn [visit_struct]. rewrite bind_ok.
  set (F := map (fun nt => match nt with (n, t') => (n, de t') end) fs).
  set (M := map (fun nt => match nt with (n, t') => (n, missing t') end) fs).
  assert (HK : forall k, known F k = known fs k) by (intro k; unfold known, F; rewrite find_field_map; destruct (find_field k fs); reflexivity).
  assert (HF : forall k f, find_field k F = Some f <-> exists t, In (k, t) fs /\ f = de t).
  { intros k f. unfold F. rewrite find_field_map. split.
    - intro H. destruct (find_field k fs) as [t|] eqn:E; [|discriminate]. injection H as <-. apply find_field_In in E. eauto.
    - intros (t & HI & ->). rewrite (find_field_nodup fs k t ND HI). reflexivity. }
  assert (HU : forall k t t', In (k, t) fs -> In (k, t') fs -> t = t').
  { intros k t t' H1 H2. apply (find_field_nodup fs k t ND) in H1. apply (find_field_nodup fs k t' ND) in H2. congruence. }
  assert (HL : among (map fst fs) (map fst L) = map fst (filter (fun ks => known F (fst ks)) L)).
  { rewrite <- known_among. clear -HK. induction L as [|[k v] l IH]; [reflexivity|]. cbn [map filter fst]. rewrite HK. destruct (known fs k); cbn [map fst]; rewrite IH; reflexivity. }
  assert (HM : forall acc, struct_finish M acc = Ok ds <-> Forall2 (fun ft nd => fst nd = fst ft /\ match find_field (fst ft) acc with Some x => Ok x | None => missing (snd ft) end = Ok (snd nd)) fs ds).
  { intro acc. unfold struct_finish, M. rewrite mapM_map, Forall2_mapM. apply Forall2_iff. intros [n t] [n' d]. cbn [fst snd]. rewrite rmap_ok. split.
    - intros (x & H & K). injection K as -> ->. now split.
    - intros [-> H]. exists d. now split. }
  rewrite HL. set (KL := filter (fun ks => known F (fst ks)) L).
  assert (HKL : forall k s, In (k, s) KL <-> In (k, s) L /\ exists t, In (k, t) fs).
  { intros k s. unfold KL. rewrite filter_In. cbn [fst]. unfold known. split; intros [H1 H2]; (split; [exact H1|]).
    - destruct (find_field k F) as [f|] eqn:E; [|discriminate]. apply HF in E as (t & Ht & _). eauto.
    - destruct H2 as [t Ht]. rewrite (proj2 (HF k (de t))) by eauto. reflexivity. }
  split.
  - intros (acc & HA & HS). apply struct_entries_spec in HA as (new & -> & HN & HND & _). rewrite app_nil_r in HS. apply HM in HS. fold KL in HN.
    assert (HNames : map fst new = map fst KL) by (clear -HN; induction HN as [|? ? ? ? (H & _) _ IH]; [reflexivity|]; cbn [map]; rewrite H, IH; reflexivity).
    split; [now rewrite <- HNames|].
    assert (HIn : forall k d, In (k, d) new -> exists s t, In (k, s) KL /\ In (k, t) fs /\ de t s = Ok d).
    { clear -HN HF. intros k d HI. induction HN as [|[a s] [b e] ? ? (H & f & Hf & He) _ IH]; [destruct HI|]. cbn [fst snd] in *. destruct HI as [HI|HI].
      - injection HI as -> ->. subst a. apply HF in Hf as (t & Ht & ->). exists s, t. split; [now left|]. now split.
      - destruct (IH HI) as (s' & t & ? & ?). exists s', t. split; [now right|assumption]. }
    revert HS. apply F2_in. intros [n t] [n' d] HI [H1 H2]. cbn [fst snd] in *. split; [exact H1|]. destruct (find_field n (rev new)) as [x|] eqn:E.
    + left. injection H2 as <-. apply find_field_In in E. rewrite <- in_rev in E. destruct (HIn n x E) as (s & t' & Hv & Ht' & Hd).
      rewrite (HU _ _ _ HI Ht'). exists s. split; [now apply HKL in Hv|exact Hd].
    + right. split; [|exact H2]. intro HX. apply in_map_iff in HX as ([n0 s] & H0 & HX). cbn [fst] in H0. subst n0.
      apply find_field_None in E. apply E. rewrite map_rev, <- in_rev, HNames. change n with (fst (n, s)). apply in_map. apply HKL. split; [exact HX|now exists t].
  - intros (HND & HS).
    assert (HNew : exists new, Forall2 (fun ks kd => fst kd = fst ks /\ exists f, find_field (fst ks) F = Some f /\ f (snd ks) = Ok (snd kd)) KL new).
    { assert (HG : forall k s, In (k, s) KL -> exists d f, find_field k F = Some f /\ f s = Ok d).
      { intros k s HI. pose proof HI as HI'. apply HKL in HI' as [HI' [t Ht]]. destruct (F2_left _ _ _ _ HS Ht) as ([n' d] & _ & H2). cbn [fst snd] in H2. destruct H2 as [_ [(s' & Hs' & Hd)|[HX _]]].
        - assert (s' = s) as ->.
          { assert (In (k, s') KL) as HI2 by (apply HKL; eauto). pose proof (find_field_nodup _ _ _ HND HI) as E1. pose proof (find_field_nodup _ _ _ HND HI2) as E2. congruence. }
          exists d, (de t). split; [apply HF; eauto|exact Hd].
        - exfalso. apply HX. change k with (fst (k, s)). now apply in_map. }
      revert HG. clear. generalize KL as K. induction K as [|[k s] K IH]; intro HG; [exists []; constructor|].
      destruct IH as (new & IH). { intros k' s' HI. apply HG. now right. }
      destruct (HG k s (or_introl eq_refl)) as (d & f & Hf & Hd). exists ((k, d) :: new). constructor; [|exact IH]. cbn [fst snd]. split; [reflexivity|]. eauto. }
    destruct HNew as (new & HN).
    assert (HNames : map fst new = map fst KL) by (clear -HN; induction HN as [|? ? ? ? (H & _) _ IH]; [reflexivity|]; cbn [map]; rewrite H, IH; reflexivity).
    assert (HNDn : NoDup (map fst new)) by (now rewrite HNames).
    exists (rev new ++ []). split.
    + apply struct_entries_spec. exists new. split; [reflexivity|]. split; [exact HN|]. split; [exact HNDn|intros k _ []].
    + rewrite app_nil_r. apply HM. revert HS. apply F2_in. intros [n t] [n' d] HI [H1 H2]. cbn [fst snd] in *. split; [exact H1|]. destruct H2 as [(s & Hs & Hd)|(HX & Hd)].
      * assert (In (n, s) KL) as HK1 by (apply HKL; eauto). destruct (F2_left _ _ _ _ HN HK1) as ([n0 d0] & HI0 & H0 & f & Hf & He). cbn [fst snd] in *. subst n0.
        apply HF in Hf as (t' & Ht' & ->). rewrite (HU _ _ _ Ht' HI) in He.
        rewrite (find_field_nodup (rev new) n d0); [congruence| |now rewrite <- in_rev]. rewrite map_rev. apply NoDup_rev. exact HNDn.
      * rewrite find_field_absent; [exact Hd|]. rewrite map_rev, <- in_rev, HNames. intro HI'. apply in_map_iff in HI' as ([k s] & HE & HI'). cbn [fst] in HE. subst k.
        apply HX. apply HKL in HI' as [HI' _]. change n with (fst (n, s)). now apply in_map.
Qed.

Lemma struct_unnamed {T} (fs : list (str * ty)) ms strict (ss : list (source T)) ds :
  visit_struct (map (fun nt => match nt with (n, t') => (n, de t') end) fs) ms (VSeq strict ss) = Ok ds <->
  exists used rest, ss = used ++ rest /\ (strict = true -> rest = []) /\ Forall3 (fun ft s nx => fst nx = fst ft /\ de (snd ft) s = Ok (snd nx)) fs used ds.
Proof.
  change (visit_struct ?a ?b (VSeq ?s ?l)) with (rmap (combine (map fst a)) (visit_elems (map snd a) (VSeq s l))). rewrite rmap_ok.
  assert (X : forall used, Forall3 (fun ft s nx => fst nx = fst ft /\ de (snd ft) s = Ok (snd nx)) fs used ds <->
     exists xs, Forall3 (fun f s x => f s = Ok x) (map snd (map (fun nt : str * ty => match nt with (n, t') => (n, de (T := T) t') end) fs)) used xs /\
       ds = combine (map fst (map (fun nt : str * ty => match nt with (n, t') => (n, de (T := T) t') end) fs)) xs).
  { clear. revert ds. induction fs as [|[n t] fs IH]; intros ds used; cbn [map fst snd].
    - split; [intro H; inv H; exists []; split; [constructor|reflexivity]|]. intros (xs & H & ->). inv H. constructor.
    - split.
      + intro H. inv H. match goal with H : Forall3 _ fs _ _ |- _ => apply IH in H as (xs & F & ->) end. match goal with H : _ /\ _ |- _ => destruct H as [E1 E2] end.
        destruct c as [n' x]. cbn [fst snd] in *. subst n'. exists (x :: xs). split; [now constructor|reflexivity].
      + intros (xs & H & ->). inv H. cbn [combine]. constructor; [now split|]. apply IH. eauto. }
  split.
  - intros (xs & H & ->). apply elems3 in H as (u & r & -> & S & F). exists u, r. split; [reflexivity|]. split; [exact S|]. apply X. eauto.
  - intros (u & r & -> & S & F). apply X in F as (xs & F & ->). exists xs. split; [apply elems3; eauto|reflexivity].
Qed.

Lemma struct_event {T} (p : place T) s : src p = Some s ->
  match struct_at p with
  | Some (inl l) => exists L, linked_entries l L /\ deserialize s HStruct = Ok (VMap L)
  | Some (inr (strict, ps)) => exists ss, linked ps ss /\ deserialize s HStruct = Ok (VSeq strict ss)
  | None => forall fs ms ds, bind (deserialize s HStruct) (visit_struct fs ms) <> Ok ds
  end.
Proof.
  intro Hs.
  assert (C : forall c : composite (value T), match entries_of c with
     | inl l => exists L, linked_entries l L /\ composite_any c = VMap L | inr (strict, ps) => exists ss, linked ps ss /\ composite_any c = VSeq strict ss end).
  { intros [l|l]; cbn [entries_of composite_any].
    - eexists. split; [|reflexivity]. induction l as [|[k v] l IH]; constructor; [now split|exact IH].
    - eexists. split; [apply linked_values|reflexivity]. }
  places p Hs; cbn [struct_at deserialize vdef_of vdef_de vdef_any variant_de composite_de prim_de bits_map];
    try (specialize (C c); destruct (entries_of c) as [l|[strict l]]; destruct C as (L & HL & ->); exists L; now split);
    try (intros fs ms ds; try (destruct q); discriminate).
  - eexists. split; [|reflexivity]. constructor; [now split|constructor].
  - eexists. split; [apply linked_bits|reflexivity].
Qed.

Lemma linked_app {T} (a b : list (place T)) ss : linked (a ++ b) ss -> exists sa sb, ss = sa ++ sb /\ linked a sa /\ linked b sb.
Proof. intro H. apply Forall2_app_inv_l in H as (sa & sb & H1 & H2 & ->). exists sa, sb. now repeat split. Qed.

Lemma linked_app' {T} (ps : list (place T)) sa sb : linked ps (sa ++ sb) -> exists a b, ps = a ++ b /\ linked a sa /\ linked b sb.
Proof. intro H. apply Forall2_app_inv_r in H as (a & b & H1 & H2 & ->). exists a, b. now repeat split. Qed.

Lemma missing_iff t x : missing t = Ok x <-> (exists u, t = TyOption u) /\ x = XNone.
Proof. destruct t; cbn [missing]; (split; [try discriminate; intro H; injection H as <-; eauto|intros [[u E] ->]; try discriminate E; reflexivity]). Qed.

Lemma ex_struct T fs : NoDup (map fst fs) -> Forall (exactly T) (map snd fs) -> exactly T (TyStruct fs).
Proof.
  intros ND E p s x Hs. cbn [de]. rewrite rmap_ok. pose proof (struct_event p s Hs) as A.
  assert (EI : forall ft, In ft fs -> exactly T (snd ft)) by (intros ft HI; rewrite Forall_forall in E; apply E; now apply in_map).
  assert (NAMED : forall (l : list (str * place T)) L ds, linked_entries l L ->
     Forall2 (fun ft nd => fst nd = fst ft /\ ((exists s, In (fst ft, s) L /\ de (snd ft) s = Ok (snd nd)) \/ (~ In (fst ft) (map fst L) /\ missing (snd ft) = Ok (snd nd)))) fs ds <->
     Forall2 (fun ft nx => fst nx = fst ft /\ ((exists q, In (fst ft, q) l /\ reads (snd ft) q (snd nx)) \/ (~ In (fst ft) (map fst l) /\ (exists t, snd ft = TyOption t) /\ snd nx = XNone))) fs ds).
  { intros l L ds HL. rewrite (entries_fst l L HL). split; apply F2_in; intros ft nd HI [H1 H2]; (split; [exact H1|]).
    - destruct H2 as [(s' & H2 & H3)|[H2 H3]]; [left|right].
      + destruct (entries_in' l L _ _ HL H2) as (q & Hq & Eq). exists q. split; [exact Hq|]. now apply (EI ft HI q s').
      + split; [exact H2|]. now apply missing_iff.
    - destruct H2 as [(q & H2 & H3)|[H2 H3]]; [left|right].
      + destruct (entries_in l L _ _ HL H2) as (s' & Hq & Eq). exists s'. split; [exact Hq|]. now apply (EI ft HI q s').
      + split; [exact H2|]. now apply missing_iff. }
  assert (UNN : forall (ps : list (place T)) ss ds, linked ps ss ->
     Forall3 (fun ft s nx => fst nx = fst ft /\ de (snd ft) s = Ok (snd nx)) fs ss ds <-> Forall3 (fun ft q nx => fst nx = fst ft /\ reads (snd ft) q (snd nx)) fs ps ds).
  { clear -EI. induction fs as [|ft fs IH]; intros ps ss ds L.
    - split; intro H; inv H; inv L; constructor.
    - assert (EI' : forall f, In f fs -> exactly T (snd f)) by (intros f Hf; apply EI; now right). specialize (IH EI').
      split; intro H; inv H; inv L; (match goal with H : _ /\ _ |- _ => destruct H as [E1 E2] end); constructor; try (eapply IH; eassumption); (split; [exact E1|]);
        (eapply (EI ft); [now left|eassumption|eassumption]). }
  split.
  - intros (ds & H & ->). destruct (struct_at p) as [[l|[strict ps]]|] eqn:P; [| |destruct (A _ _ _ H)].
    + destruct A as (L & HL & D). rewrite D in H. cbn [bind] in H. apply struct_named in H as [H1 H2]; [|exact ND]. rewrite (entries_fst l L HL) in H1.
      eapply R_struct_named; [exact P|exact H1|]. eapply NAMED; eassumption.
    + destruct A as (ss & HL & D). rewrite D in H. cbn [bind] in H. apply struct_unnamed in H as (u & r & -> & S & F). destruct (linked_app' _ _ _ HL) as (a & b & -> & La & Lb).
      eapply R_struct_unnamed; [exact P| |eapply UNN; eassumption]. intro HE. rewrite (S HE) in Lb. now inv Lb.
  - intro H. inv H; match goal with H : struct_at p = _ |- _ => rewrite H in A end.
    + destruct A as (L & HL & D). rewrite D. cbn [bind]. eexists. split; [|reflexivity]. apply struct_named; [exact ND|]. split; [now rewrite (entries_fst _ _ HL)|]. eapply NAMED; eassumption.
    + destruct A as (ss & HL & D). rewrite D. cbn [bind]. eexists. split; [|reflexivity]. apply struct_unnamed. apply linked_app in HL as (sa & sb & -> & La & Lb). exists sa, sb. split; [reflexivity|].
      split; [|eapply UNN; eassumption]. intro HE. match goal with H : _ = true -> rest = [] |- _ => rewrite (H HE) in Lb end. now inv Lb.
Qed.

(** ** Enums *)
Definition shape_ok (T : Type) (b : vshape ty) : Prop :=
  match b with VsUnit => True | VsNewtype t => exactly T t | VsTuple ts => Forall (exactly T) ts | VsStruct fs => NoDup (map fst fs) /\ Forall (exactly T) (map snd fs) end.

Lemma ex_enum T vs : NoDup (map fst vs) -> Forall (fun nb => shape_ok T (snd nb)) vs -> exactly T (TyEnum vs).
Proof.
  intros ND W p s x Hs. cbn [de].
  assert (A : match variant_at p with Some (n, c) => deserialize s HEnum = Ok (VEnum n c) | None => forall a b, bind (deserialize s HEnum) (visit_enum a b) <> Ok x end).
  { places p Hs; cbn [variant_at def_at vdef_of deserialize vdef_de variant_de composite_de prim_de bits_de bind]; try reflexivity; intros vs1 ms1; try (destruct c); try (destruct q); discriminate. }
  destruct (variant_at p) as [[n c]|] eqn:V.
  2:{ split; [intro H; destruct (A _ _ H)|]. intro H. inv H; congruence. }
  rewrite A. cbn [bind visit_enum]. rewrite !find_field_map.
  destruct (find_field n vs) as [body|] eqn:Eb; cbn [option_map].
  2:{ split; [discriminate|]. apply find_field_None in Eb. intro H. exfalso. inv H; match goal with H : variant_at p = Some _ |- _ => rewrite V in H; injection H as <- <- end;
        match goal with H : In _ vs |- _ => apply (in_map fst) in H; now apply Eb end. }
  assert (HU : forall body', In (n, body') vs -> body' = body) by (intros body' HI; apply (find_field_nodup vs n body' ND) in HI; congruence).
  apply find_field_In in Eb. rewrite Forall_forall in W. specialize (W _ Eb). cbn [snd] in W.
  assert (Hc : src (T := T) (InNewtype (DComposite c)) = Some (SrcComposite c)) by reflexivity.
  destruct body as [|t|ts|fs]; cbn [vshape_map shape_ok] in *.
  - change (deserialize (SrcComposite c) HUnit) with (composite_de c HUnit). cbn [composite_de].
    assert (HC : cis_empty c = true <-> values c = []) by (destruct c as [[|[? ?] ?]|[|? ?]]; cbn; split; intro; congruence). split.
    + intro H. destruct (cis_empty c) eqn:EC; [|discriminate H]. injection H as <-. eapply R_enum_unit; [exact V|exact Eb|now apply HC].
    + intro H. inv H; match goal with H : variant_at p = Some _ |- _ => rewrite V in H; injection H as <- <- end; match goal with H : In _ vs |- _ => apply HU in H; try discriminate H end.
      rewrite (proj2 HC) by assumption. reflexivity.
  - rewrite rmap_ok. split.
    + intros (y & H & ->). eapply R_enum_newtype; [exact V|exact Eb|]. now apply (W _ _ _ Hc).
    + intro H. inv H; match goal with H : variant_at p = Some _ |- _ => rewrite V in H; injection H as <- <- end; match goal with H : In _ vs |- _ => apply HU in H; try discriminate H; injection H as -> end.
      eexists. split; [|reflexivity]. now apply (W _ _ _ Hc).
  - rewrite map_length. pose proof (tuple_at (InNewtype (DComposite c)) _ (length ts) Hc) as B. cbn [parts_at fields_at def_at] in B. destruct B as (ss & L & B). cbn [deserialize] in B. rewrite bind_ok. split.
    + intros (e & He & H). apply rmap_ok in H as (xs & H & ->). assert (H' : bind (composite_de c (HTuple (length ts))) (visit_elems (map de ts)) = Ok xs) by (rewrite He; exact H).
      apply B in H'; [|apply map_length]. eapply R_enum_tuple; [exact V|exact Eb|]. eapply exact_list; eassumption.
    + intro H. inv H; match goal with H : variant_at p = Some _ |- _ => rewrite V in H; injection H as <- <- end; match goal with H : In _ vs |- _ => apply HU in H; try discriminate H; injection H as -> end.
      assert (H' : bind (composite_de c (HTuple (length ts))) (visit_elems (map de ts)) = Ok xs) by (apply B; [apply map_length|]; eapply exact_list; eassumption).
      apply bind_ok in H' as (e & He & H'). exists e. split; [exact He|]. apply rmap_ok. eauto.
  - destruct W as [W1 W2]. pose proof (fun d => ex_struct T fs W1 W2 (InNewtype (DComposite c)) (SrcComposite c) d eq_refl) as B.
    assert (B' : forall ds, visit_struct (map (fun nt => match nt with (m, t') => (m, de t') end) fs) (map (fun nt => match nt with (m, t') => (m, missing t') end) fs) (composite_any c) = Ok ds <-> reads (TyStruct fs) (InNewtype (DComposite c)) (XStruct ds)).
    { intro ds. rewrite <- (B (XStruct ds)). cbn [de deserialize composite_de bind]. rewrite rmap_ok. split; [eauto|]. intros (y & H & K). now injection K as ->. }
    rewrite rmap_ok. split.
    + intros (ds & H & ->). eapply R_enum_struct; [exact V|exact Eb|]. now apply B'.
    + intro H. inv H; match goal with H : variant_at p = Some _ |- _ => rewrite V in H; injection H as <- <- end; match goal with H : In _ vs |- _ => apply HU in H; try discriminate H; injection H as -> end.
      eexists. split; [|reflexivity]. now apply B'.
Qed.

(** ** The types of the crate *)
Definition copies {T} (v : value T) : Prop := forall w, de_value (SrcValue v) = Ok w <-> copied (vdef_of v) w.

Lemma list_copied {T} (l : list (value T)) l' : Forall copies l -> mapM (fun v => de_value (SrcValue v)) l = Ok l' <-> Forall2 (fun v w => copied (vdef_of v) w) l l'.
Proof.
  intro H. rewrite Forall2_mapM. rewrite Forall_forall in H. split; apply F2_in; intros v w HI K; now apply (H v HI).
Qed.

Lemma fields_copied {T} (l : list (str * value T)) l' : Forall copies (map snd l) ->
  de_fields l = Ok l' <-> Forall2 (fun kv kw => fst kw = fst kv /\ copied (vdef_of (snd kv)) (snd kw)) l l'.
Proof.
  intro H. unfold de_fields. rewrite Forall2_mapM. rewrite Forall_forall in H. split; apply F2_in; intros [k v] [k' w] HI K; cbn [fst snd] in *.
  - apply rmap_ok in K as (y & K & E). injection E as -> ->. split; [reflexivity|]. apply H; [apply (in_map snd) in HI; exact HI|exact K].
  - destruct K as [-> K]. apply rmap_ok. exists w. split; [|reflexivity]. apply H; [apply (in_map snd) in HI; exact HI|exact K].
Qed.

Lemma comp_copied {T} (c : composite (value T)) c' : Forall copies (values c) -> de_comp c = Ok c' <-> copied_fields c c'.
Proof.
  destruct c as [l|l]; cbn [values de_comp]; intro H; rewrite rmap_ok.
  - split; [intros (l' & K & ->); constructor; now apply fields_copied|]. intro K. inv K. eexists. split; [|reflexivity]. now apply fields_copied.
  - split; [intros (l' & K & ->); constructor; now apply list_copied|]. intro K. inv K. eexists. split; [|reflexivity]. now apply list_copied.
Qed.

Lemma bools_read {T} (v : value T) bs : bind (deserialize (SrcValue v) HSeq) (visit_vec de_bool) = Ok bs <->
  exists c, fields_at (AtValue v) = Some c /\ Forall2 (fun w b => vdef_of w = DPrim (PBool b)) (values c) bs.
Proof.
  assert (B : forall l : list (value T), mapM de_bool (map SrcValue l) = Ok bs <-> Forall2 (fun w b => vdef_of w = DPrim (PBool b)) l bs).
  { intro l. rewrite mapM_map, Forall2_mapM. apply Forall2_iff. intros w b. unfold de_bool. cbn [deserialize].
    destruct (vdef_of w) as [c|n c|b'|q]; cbn [vdef_de variant_de composite_de bits_de bind]; [destruct c| | |destruct q]; cbn; (split; [intro H; try discriminate H; now injection H as ->|intro H; try discriminate H; now injection H as ->]). }
  destruct v as [[c|n c|b|q] ctx]; cbn [fields_at def_at vdef_of deserialize vdef_de variant_de composite_de bits_de prim_de bind visit_vec].
  - rewrite B. split; [eauto|]. intros (c' & H & F). now injection H as ->.
  - rewrite B. split; [eauto|]. intros (c' & H & F). now injection H as ->.
  - split; [discriminate|]. intros (c' & H & _). discriminate H.
  - split; [destruct q; discriminate|]. intros (c' & H & _). discriminate H.
Qed.

Lemma def_copied {T} (d : vdef (value T)) w : Forall copies (children d) -> rmap (fun d => Val d tt) (visit_valuedef de_value (vdef_any d)) = Ok w <-> copied d w.
Proof.
  intro H. destruct d as [[l|l]|n c|b|q]; cbn [vdef_any composite_any visit_valuedef].
  - cbn [children values] in H.
    assert (P : (forall v r, l <> (reserved_key, v) :: r) -> (rmap (fun d => Val d tt) (visit_map_or_bits de_value (map (fun kv => (fst kv, SrcValue (snd kv))) l)) = Ok w <-> exists l', w = named_composite l' /\ de_fields l = Ok l')).
    { intro N. rewrite visit_map_plain.
      2:{ destruct l as [|[k v] l]; [exact I|]. cbn [map fst]. apply str_eqb_neq. intros ->. exact (N v l eq_refl). }
      rewrite mapM_map. fold (de_fields l). rewrite rmap_ok. split.
      - intros (y & K & ->). apply rmap_ok in K as (l' & K & ->). exists l'. split; [reflexivity|exact K].
      - intros (l' & -> & K). eexists. split; [apply rmap_ok; exists l'; split; [exact K|reflexivity]|reflexivity]. }
    split.
    + intro K. destruct l as [|[k v] l].
      * apply P in K as (l' & -> & K); [|discriminate]. apply K_named; [discriminate|]. now apply fields_copied.
      * destruct (str_eqb k reserved_key) eqn:EK.
        -- apply str_eqb_eq in EK. subst k. cbn [map fst snd visit_map_or_bits] in K. change reserved_key with bitvec_key in K at 1. rewrite str_eqb_refl in K.
           apply rmap_ok in K as (y & K & ->). apply rmap_ok in K as (bs & K & ->). apply bools_read in K as (c & K1 & K2). eapply K_reserved; eassumption.
        -- apply str_eqb_neq in EK. assert (N : forall v' r, (k, v) :: l <> (reserved_key, v') :: r) by (intros v' r E; injection E as -> _ _; now apply EK).
           apply P in K as (l' & -> & K); [|exact N]. apply K_named; [exact N|]. now apply fields_copied.
    + intro K. inv K.
      * apply P; [assumption|]. eexists. split; [reflexivity|]. now apply fields_copied.
      * cbn [map fst snd visit_map_or_bits]. change reserved_key with bitvec_key at 1. rewrite str_eqb_refl. assert (B : bind (deserialize (SrcValue v) HSeq) (visit_vec de_bool) = Ok bs) by (apply bools_read; eauto).
        rewrite B. reflexivity.
  - cbn [children values visit_composite] in *. rewrite mapM_map, rmap_ok. split.
    + intros (y & K & ->). apply rmap_ok in K as (c & K & ->). apply rmap_ok in K as (l' & K & ->). apply K_unnamed. now apply list_copied.
    + intro K. inv K. eexists. split; [apply rmap_ok; eexists; split; [apply rmap_ok; eexists; split; [apply list_copied; eassumption|reflexivity]|reflexivity]|reflexivity].
  - cbn [visit_variant]. change (de_composite_with de_value (SrcComposite c)) with (de_composite (SrcComposite c)). rewrite de_composite_eq.
    assert (HC : Forall copies (values c)) by (destruct c; exact H). split.
    + intro K. apply rmap_ok in K as (y & K & ->). apply rmap_ok in K as (nc & K & ->). apply rmap_ok in K as (c' & K & ->). cbn [fst snd]. apply (comp_copied c c' HC) in K. inv K; [now apply K_variant_named|now apply K_variant_unnamed].
    + intro K. assert (X : exists c', w = Val (DVariant n c') tt /\ copied_fields c c') by (inv K; eexists; (split; [reflexivity|]); now constructor). destruct X as (c' & -> & X).
      apply (comp_copied c c' HC) in X. rewrite X. reflexivity.
  - cbn [bits_map visit_valuedef visit_map_or_bits]. rewrite str_eqb_refl. cbn [deserialize bind visit_vec]. rewrite mapM_srcbool. cbn [rmap]. split; [intro K; injection K as <-; constructor|]. intro K. inv K. reflexivity.
  - split.
    + intro K. destruct q as [b|c|s|n|z|b|b]; cbn [prim_any visit_valuedef visit_prim visit_composite rmap] in K; try rewrite N2Z.id in K; injection K as <-;
        first [now apply K_prim|now apply K_256].
    + intro K. inv K; destruct q; try discriminate; cbn [prim_any visit_valuedef visit_prim visit_composite rmap]; try rewrite N2Z.id; try reflexivity;
        (match goal with H : bytes_in _ = _ |- _ => cbn in H; injection H as -> end; reflexivity).
Qed.

Lemma all_copies {T} (v : value T) : copies v.
Proof.
  revert v. apply value_ind'. intros d ctx H w. rewrite de_value_unfold. cbn [any_of vdef_of]. apply def_copied. exact H.
Qed.

Lemma all_copies_list {T} (l : list (value T)) : Forall copies l.
Proof. apply Forall_forall. intros v _. apply all_copies. Qed.

Lemma ex_value T : exactly T TyValue.
Proof.
  intros p s x Hs. cbn [de]. rewrite rmap_ok.
  assert (A : match def_at p with
    | Some d => forall w, de_value s = Ok w <-> copied d w
    | None => match p with AtBits l => de_value s = Ok (unnamed_composite (map vbool l)) | AtBit b => de_value s = Ok (vbool b) | _ => False end end).
  { places p Hs; cbn [def_at]; try (intro w; rewrite de_value_unfold; cbn [any_of vdef_of]; first [exact (def_copied (DComposite c) w (all_copies_list _))|exact (def_copied (DVariant n c) w (all_copies_list _))|exact (def_copied (DPrim q) w (all_copies_list _))|exact (def_copied (DBits b) w (all_copies_list _))]).
    - apply de_value_bools.
    - rewrite de_value_unfold. reflexivity. }
  destruct (def_at p) as [d|] eqn:D.
  - split; [intros (w & H & ->); eapply R_value; [exact D|now apply A]|]. intro H. inv H; try discriminate D. match goal with H : def_at p = Some _ |- _ => rewrite D in H; injection H as <- end. eexists. split; [|reflexivity]. now apply A.
  - split.
    + intros (w & H & ->). destruct p as [v|d|l|b]; try contradiction; rewrite A in H; injection H as <-; constructor.
    + intro H. inv H; [congruence| |]; eexists; (split; [exact A|reflexivity]).
Qed.

Lemma ex_composite T : exactly T TyComposite.
Proof.
  intros p s x Hs. cbn [de]. rewrite rmap_ok. unfold de_composite, de_composite_with. rewrite deserialize_any_ok. cbn [bind].
  assert (C : forall (c : composite (value T)) c', visit_composite de_value (composite_any c) = Ok c' <-> copied_fields c c') by (intros c c'; rewrite visit_composite_any; apply comp_copied, all_copies_list).
  assert (B : forall (b : list bool), visit_composite de_value (bits_map (T := T) b) = Ok (Named [(reserved_key, unnamed_composite (map vbool b))])).
  { intro b. cbn [bits_map visit_composite mapM fst snd]. rewrite de_value_bools. reflexivity. }
  split.
  - intros (c' & H & ->). places p Hs; cbn [any_of vdef_of vdef_any] in H.
    + apply C in H. eapply R_composite; [reflexivity|exact H].
    + discriminate H.
    + rewrite B in H. injection H as <-. now apply R_composite_of_bits.
    + destruct q; try discriminate H; injection H as <-; eapply R_composite_256; reflexivity.
    + apply C in H. eapply R_composite; [reflexivity|exact H].
    + discriminate H.
    + destruct q; try discriminate H; injection H as <-; eapply R_composite_256; reflexivity.
    + cbn [visit_composite] in H. rewrite mapM_map, (mapM_total _ vbool) in H by (intros y _; rewrite de_value_unfold; reflexivity). injection H as <-. constructor.
    + discriminate H.
  - intro H. inv H.
    + exists c'. split; [|reflexivity]. places p Hs; cbn [composite_at def_at vdef_of] in *; try discriminate; same; cbn [any_of vdef_of vdef_any]; now apply C.
    + eexists. split; [|reflexivity]. places p Hs; cbn [prim_at def_at vdef_of] in *; try discriminate; same; try discriminate;
        match goal with H : bytes_in ?q = _ |- _ => destruct q; try discriminate H; cbn in H; injection H; clear H; intros; subst end; reflexivity.
    + eexists. split; [|reflexivity]. places p Hs; cbn [def_at vdef_of] in *; try discriminate; same. cbn [any_of vdef_of vdef_any]. apply B.
    + cbn [src] in Hs. injection Hs as <-. eexists. split; [|reflexivity]. cbn [any_of visit_composite]. rewrite mapM_map, (mapM_total _ vbool) by (intros y _; rewrite de_value_unfold; reflexivity). reflexivity.
Qed.

Lemma ex_variant T : exactly T TyVariant.
Proof.
  intros p s x Hs. cbn [de]. rewrite rmap_ok. unfold de_variant. rewrite deserialize_any_ok. cbn [bind].
  assert (V : forall n (c : composite (value T)) nc, visit_variant de_value (VEnum n c) = Ok nc <-> exists c', nc = (n, c') /\ copied_fields c c').
  { intros n c nc. cbn [visit_variant]. change (de_composite_with de_value (SrcComposite c)) with (de_composite (SrcComposite c)). rewrite de_composite_eq, rmap_ok. split; intros (c' & H1 & H2); exists c'.
    - split; [exact H2|]. now apply comp_copied; [apply all_copies_list|].
    - split; [|exact H1]. now apply comp_copied; [apply all_copies_list|]. }
  assert (M : forall l n c, composite_at p = Some (Named l) -> variant_map l n c <-> reads TyVariant p (XVariant n c)).
  { intros l n c Hl. unfold variant_map.
    assert (ST : forall (v : value T) z, from_value TyString v = Ok z <-> reads TyString (AtValue v) z) by (intros v z; now apply (ex_string T (AtValue v) (SrcValue v))).
    assert (CO : forall (v : value T) z, from_value TyComposite v = Ok z <-> reads TyComposite (AtValue v) z) by (intros v z; now apply (ex_composite T (AtValue v) (SrcValue v))).
    split.
    - intros (F & (vn & L1 & H1) & (vc & L2 & H2)). eapply (R_variant_map p l vn vc); [exact Hl| |exact L1|now apply ST|exact L2|now apply CO].
      rewrite Forall_forall in *. intros kv HI. destruct (F kv HI) as [[E [y Hy]]|[E [y Hy]]]; [left|right]; (split; [exact E|]); exists y; [now apply ST|now apply CO].
    - intro H. inv H.
      { exfalso. unfold composite_at in Hl. unfold variant_at in *. destruct (def_at p) as [[]|]; discriminate. }
      match goal with H : composite_at p = Some _ |- _ => rewrite Hl in H; injection H as <- end.
      split; [|split; eexists; (split; [eassumption|]); [now apply ST|now apply CO]].
      match goal with H : Forall _ l |- _ => rename H into F end. rewrite Forall_forall in *. intros kv HI. destruct (F kv HI) as [[E [y Hy]]|[E [y Hy]]]; [left|right]; (split; [exact E|]); exists y; [now apply ST|now apply CO]. }
  split.
  - intros ([n' c'] & H & ->). cbn [fst snd].
    places p Hs; cbn [any_of vdef_of vdef_any] in H.
    + destruct c as [l|l]; [|discriminate H]. cbn [composite_any] in H. apply variant_map_ok in H. now apply (M l).
    + apply V in H as (c2 & E & H). injection E as -> ->. eapply R_variant; [reflexivity|exact H].
    + discriminate H.
    + destruct q; discriminate H.
    + destruct c as [l|l]; [|discriminate H]. cbn [composite_any] in H. apply variant_map_ok in H. now apply (M l).
    + apply V in H as (c2 & E & H). injection E as -> ->. eapply R_variant; [reflexivity|exact H].
    + destruct q; discriminate H.
    + discriminate H.
    + discriminate H.
  - intro H. pose proof H as H0. inv H.
    + exists (n, c'). split; [|reflexivity]. places p Hs; cbn [variant_at def_at vdef_of] in *; try discriminate; same; cbn [any_of vdef_of vdef_any]; apply V; eauto.
    + exists (n, c). split; [|reflexivity]. match goal with H : composite_at p = Some _ |- _ => rename H into Hl end. apply (M l n c Hl) in H0.
      places p Hs; cbn [composite_at def_at vdef_of] in Hl; try discriminate Hl; injection Hl as ->; cbn [any_of vdef_of vdef_any composite_any]; now apply variant_map_ok.
Qed.

Lemma u8_read {T} (v : value T) z : de_u8 (SrcValue v) = Ok z <-> number_in v = Some z /\ (0 <= z < 256)%Z.
Proof.
  assert (I := de_int_spec false 8 v (XInt z) (or_introl eq_refl)). unfold from_value in I. cbn [de] in I. unfold de_u8. rewrite rmap_ok in I. split.
  - intro H. destruct (proj1 I) as (z' & H1 & H2 & E); [eauto|]. injection E as <-. now split.
  - intros [H1 H2]. destruct (proj2 I) as (z' & H & E); [exists z; now repeat split|]. now injection E as ->.
Qed.

Lemma ex_prim T : exactly T TyPrim.
Proof.
  intros p s x Hs. cbn [de]. rewrite rmap_ok. unfold de_prim. rewrite deserialize_any_ok. cbn [bind].
  assert (Q : forall q y, visit_prim (prim_any (T := T) q) = Ok y <-> (bytes_in q = None /\ y = q) \/ (exists bs, bytes_in q = Some bs /\ length bs = 32%nat /\ y = PU256 bs)).
  { intros q y. destruct q as [b|c|s'|n|z|b|b]; cbn [prim_any visit_prim bytes_in]; try rewrite N2Z.id;
      try (split; [intro H; injection H as <-; now left|]; intros [[_ ->]|(bs & H & _)]; [reflexivity|discriminate H]).
    - destruct (Nat.eqb_spec (length b) 32) as [L|L]; (split; [intro H; try discriminate H|]).
      + injection H as <-. right. eauto.
      + intros [[H _]|(bs & H & _ & ->)]; [discriminate H|]. now injection H as ->.
      + intros [[H _]|(bs & H & L' & _)]; [discriminate H|]. injection H as ->. contradiction.
    - destruct (Nat.eqb_spec (length b) 32) as [L|L]; (split; [intro H; try discriminate H|]).
      + injection H as <-. right. eauto.
      + intros [[H _]|(bs & H & _ & ->)]; [discriminate H|]. now injection H as ->.
      + intros [[H _]|(bs & H & L' & _)]; [discriminate H|]. injection H as ->. contradiction. }
  assert (B : forall (l : list (value T)) y, visit_prim (VSeq false (map SrcValue l)) = Ok y <->
     exists bs, y = PU256 bs /\ length l = 32%nat /\ Forall2 (fun v b => number_in v = Some (Z.of_N b) /\ (b < 256)%N) l bs).
  { intros l y. cbn [visit_prim]. rewrite mapM_map, bind_ok. split.
    - intros (zs & H & E). pose proof (mapM_length _ _ _ H) as LL. destruct (Nat.eqb_spec (length zs) 32) as [L|L]; [|discriminate E]. injection E as <-. exists (map Z.to_N zs). split; [reflexivity|]. split; [congruence|].
      apply Forall2_mapM in H. clear LL L. induction H as [|v z l zs Hz F IH]; cbn [map]; constructor; [|exact IH]. apply u8_read in Hz as [H1 H2]. rewrite Z2N.id by lia. split; [exact H1|lia].
    - intros (bs & -> & L & F). exists (map Z.of_N bs). split.
      + apply Forall2_mapM. clear L. induction F as [|v b l bs [H1 H2] F IH]; cbn [map]; constructor; [|exact IH]. apply u8_read. split; [exact H1|lia].
      + rewrite map_length. replace (length bs) with 32%nat by (rewrite <- L; clear -F; induction F; cbn [length]; congruence). cbn [Nat.eqb]. rewrite map_map, (map_ext _ (fun y => y)), map_id; [reflexivity|]. intro a. apply N2Z.id. }
  split.
  - intros (y & H & ->). places p Hs; cbn [any_of vdef_of vdef_any] in H.
    + destruct c as [l|l]; [discriminate H|]. cbn [composite_any] in H. apply B in H as (bs & -> & L & F). eapply R_prim_bytes; [reflexivity|exact L|exact F].
    + discriminate H.
    + discriminate H.
    + apply Q in H as [[H ->]|(bs & H & L & ->)]; [now apply R_prim|]. eapply R_prim_256; [reflexivity|exact H|exact L].
    + destruct c as [l|l]; [discriminate H|]. cbn [composite_any] in H. apply B in H as (bs & -> & L & F). eapply R_prim_bytes; [reflexivity|exact L|exact F].
    + discriminate H.
    + apply Q in H as [[H ->]|(bs & H & L & ->)]; [now apply R_prim|]. eapply R_prim_256; [reflexivity|exact H|exact L].
    + destruct l as [|b l]; cbn in H; discriminate H.
    + cbn in H. injection H as <-. now apply R_prim.
  - intro H. inv H.
    + exists q. split; [|reflexivity]. places p Hs; cbn [prim_at def_at vdef_of] in *; try discriminate; same; try reflexivity; cbn [any_of vdef_of vdef_any]; apply Q; now left.
    + eexists. split; [|reflexivity]. places p Hs; cbn [prim_at def_at vdef_of] in *; try discriminate; same; try discriminate; cbn [any_of vdef_of vdef_any]; apply Q; right; eauto.
    + eexists. split; [|reflexivity]. places p Hs; cbn [composite_at def_at vdef_of] in *; try discriminate; same; cbn [any_of vdef_of vdef_any composite_any]; apply B; eauto.
Qed.

(** ** All types *)
Lemma wn_list ts : fold_right (fun t' P => well_named t' /\ P) True ts <-> Forall well_named ts.
Proof. induction ts as [|t ts IH]; cbn [fold_right]; [split; constructor|]. rewrite IH. split; [intros [? ?]; now constructor|intro H; inv H; now split]. Qed.

Lemma wn_fields fs : fold_right (fun (ft : str * ty) P => match ft with (_, t') => well_named t' end /\ P) True fs <-> Forall well_named (map snd fs).
Proof. induction fs as [|[n t] fs IH]; cbn [fold_right map snd]; [split; constructor|]. rewrite IH. split; [intros [? ?]; now constructor|intro H; inv H; now split]. Qed.

Lemma wn_apply T ts : Forall (fun t => well_named t -> exactly T t) ts -> Forall well_named ts -> Forall (exactly T) ts.
Proof. induction 1; intro H'; constructor; inv H'; auto. Qed.

Theorem all_exact T t : well_named t -> exactly T t.
Proof.
  induction t as [|sg w| | | | |t IH|t IH|ts IH|t IH|t IH| |t IH|ts IH|fs IH|vs IH| | | |] using ty_ind'; cbn [well_named]; intro W;
    [apply ex_bool|apply ex_int|apply ex_char|apply ex_string|apply ex_unit|apply ex_bytes|apply ex_option; auto|apply ex_vec; auto| |apply ex_map; auto|apply ex_map_char; auto|apply ex_unit_struct|apply ex_newtype; auto| | | |apply ex_value|apply ex_composite|apply ex_variant|apply ex_prim].
  - apply ex_tuple. apply wn_apply; [exact IH|now apply wn_list].
  - apply ex_tuple_struct. apply wn_apply; [exact IH|now apply wn_list].
  - destruct W as [W1 W2]. apply ex_struct; [exact W1|]. apply wn_apply; [exact IH|now apply wn_fields].
  - destruct W as [W1 W2]. apply ex_enum; [exact W1|]. clear W1. induction IH as [|[n b] vs Hb _ IH']; constructor; destruct W2 as [W2 W3]; [|now apply IH']. cbn [snd] in *.
    destruct b as [|t|ts|fs]; cbn [shape_ok vs_tys] in *.
    + exact I.
    + inv Hb. auto.
    + apply wn_apply; [exact Hb|now apply wn_list].
    + destruct W2 as [W2 W4]. split; [exact W2|]. apply wn_apply; [exact Hb|now apply wn_fields].
Qed.
