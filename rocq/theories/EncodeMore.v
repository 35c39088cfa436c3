(** * EncodeMore: what each shape of value encodes to (C24, C32-C35, C37, C38). *)
From Coq Require Import Permutation.
From Verif Require Import Base Value ValueFacts Registry Spec_Scale Scale ScaleFacts BitsFacts Decode DecodeFacts Encode EncodeFacts Spec_Encode EncodeSound EncodeComplete.
Open Scope N_scope.

Section More.
  Context {TId : Type} (reg : TId -> resolution TId) (X : ext).

  (** Encoding [v] as a [t] succeeds and appends [bs], whatever is in the buffer.  (The fuel only bounds how many wrapper types are
      looked through; see C31.) *)
  Definition encodes {T} (v : value T) (t : TId) (bs : bytes) : Prop := exists F, forall out, encode reg X F v t out = (SOk, out ++ bs).

  Lemma encodes_yields {T} (v : value T) t bs : encodes v t bs <-> yields reg X v t bs.
  Proof.
    split; [intros [F H]; exists F|intros [F H]; exists F].
    - intros F' HF out. rewrite (encode_fuel_mono reg X F F' v t out HF); [apply H|]. rewrite H. discriminate.
    - intro out. apply H. lia.
  Qed.
  Lemma encode_ok_encodes {T} F (v : value T) t out out' : encode reg X F v t out = (SOk, out') -> exists b, out' = out ++ b /\ encodes v t b.
  Proof.
    intro H. destruct (encode_app reg X F v t) as (s & b & A). pose proof (A out) as E. rewrite H in E. injection E as <- ->. exists b. split; [reflexivity|].
    exists F. exact A.
  Qed.
  Lemma encodes_fun {T} (v : value T) t b1 b2 : encodes v t b1 -> encodes v t b2 -> b1 = b2.
  Proof.
    rewrite !encodes_yields. intros [F1 H1] [F2 H2]. specialize (H1 (Nat.max F1 F2) ltac:(lia) []). specialize (H2 (Nat.max F1 F2) ltac:(lia) []). cbn in *. congruence.
  Qed.

  (** ** Lists of items *)
  Local Notation ye T := (fun t (v : value T) b => encodes v t b).
  Lemma parts_ey {T} ts (vs : list (value T)) bs : parts (ye T) ts vs bs -> parts (fun t v b => yields reg X v t b) ts vs bs.
  Proof. apply parts_impl. intros. apply encodes_yields. assumption. Qed.

  Lemma in_order_parts {T} F (vs : list (value T)) : forall ts out out', length vs = length ts ->
    encode_in_order (map (encode reg X F) vs) ts out = (SOk, out') -> exists bs, out' = out ++ bs /\ parts (ye T) ts vs bs.
  Proof.
    induction vs as [|v vs IH]; intros [|t ts] out out' HL H; try discriminate; cbn [map encode_in_order] in H.
    - injection H as <-. exists []. rewrite app_nil_r. split; [reflexivity|constructor].
    - destruct (encode reg X F v t out) as [[| |] o1] eqn:E; cbn [andthen] in H; try discriminate.
      apply encode_ok_encodes in E as (b & -> & E). apply IH in H as (bs & -> & P); [|cbn in HL; lia].
      exists (b ++ bs). rewrite app_assoc. split; [reflexivity|]. constructor; assumption.
  Qed.
  Lemma all_parts {T} F t (vs : list (value T)) : forall out out',
    encode_all (map (encode reg X F) vs) t out = (SOk, out') -> exists bs, out' = out ++ bs /\ parts (ye T) (repeat t (length vs)) vs bs.
  Proof.
    induction vs as [|v vs IH]; intros out out' H; cbn [map encode_all] in H.
    - injection H as <-. exists []. rewrite app_nil_r. split; [reflexivity|constructor].
    - destruct (encode reg X F v t out) as [[| |] o1] eqn:E; cbn [andthen] in H; try discriminate.
      apply encode_ok_encodes in E as (b & -> & E). apply IH in H as (bs & -> & P).
      exists (b ++ bs). rewrite app_assoc. split; [reflexivity|]. cbn [length repeat]. constructor; assumption.
  Qed.

  (** ** Named fields *)
  Section Names.
    Context {T : Type}.
    (** The last entry of [l] with key [k] is [x]. *)
    Definition last_named (k : str) (l : list (str * value T)) (x : value T) : Prop :=
      exists l1 l2, l = l1 ++ (k, x) :: l2 /\ ~ In k (map fst l2).
    Definition nsrc (F : nat) (l : list (str * value T)) : list (option str * encoder) := source_fields (composite_map (encode reg X F) (Named l)).

    Lemma nsrc_cons F k x l : nsrc F ((k, x) :: l) = (Some k, encode reg X F x) :: nsrc F l. Proof. reflexivity. Qed.
    Lemma last_named_cons k l j y x : last_named k ((j, y) :: l) x <-> last_named k l x \/ (~ In k (map fst l) /\ j = k /\ y = x).
    Proof.
      split.
      - intros (l1 & l2 & E & N). destruct l1 as [|[a b] l1].
        + injection E as -> -> ->. right. auto.
        + injection E as _ _ ->. left. exists l1, l2. auto.
      - intros [(l1 & l2 & -> & N)|(N & -> & ->)]; [exists ((j, y) :: l1), l2; auto|exists [], l; auto].
    Qed.
    Lemma lookup_none F k l : lookup_last k (nsrc F l) = None <-> ~ In k (map fst l).
    Proof.
      induction l as [|[j y] l IH]; [cbn; tauto|]. rewrite nsrc_cons. cbn [lookup_last map fst In].
      destruct (lookup_last k (nsrc F l)) eqn:E.
      - split; [discriminate|]. intro H. exfalso. assert (lookup_last k (nsrc F l) = None) by (rewrite E; apply IH; tauto). congruence.
      - cbn [key_of fst snd]. destruct (str_eqb j k) eqn:K.
        + apply str_eqb_eq in K. split; [discriminate|]. tauto.
        + split; [|reflexivity]. intros _ [->|H]; [rewrite str_eqb_refl in K; discriminate|]. apply IH in H; [exact H|reflexivity].
    Qed.
    Lemma lookup_some F k l e : lookup_last k (nsrc F l) = Some e -> exists x, last_named k l x /\ e = encode reg X F x.
    Proof.
      induction l as [|[j y] l IH]; [discriminate|]. rewrite nsrc_cons. cbn [lookup_last].
      destruct (lookup_last k (nsrc F l)) as [e'|] eqn:E.
      - intros [= <-]. destruct (IH eq_refl) as (x & L & ->). exists x. split; [|reflexivity]. apply last_named_cons. auto.
      - cbn [key_of fst snd]. destruct (str_eqb j k) eqn:K; [|discriminate]. apply str_eqb_eq in K. intros [= <-]. exists y. split; [|reflexivity].
        apply last_named_cons. right. split; [apply (lookup_none F), E|auto].
    Qed.
    Lemma lookup_last_named F k l x : last_named k l x -> lookup_last k (nsrc F l) = Some (encode reg X F x).
    Proof.
      induction l as [|[j y] l IH]; intro H; [destruct H as ([|] & ? & H & _); discriminate|]. rewrite nsrc_cons. cbn [lookup_last].
      apply last_named_cons in H as [H|(N & -> & ->)]; [rewrite (IH H); reflexivity|].
      rewrite (proj2 (lookup_none F k l) N). cbn [key_of fst snd]. rewrite str_eqb_refl. reflexivity.
    Qed.
    Lemma last_named_in k l x : last_named k l x -> In (k, x) l.
    Proof. intros (l1 & l2 & -> & _). apply in_or_app. right. left. reflexivity. Qed.
    Lemma last_named_nodup k l x : NoDup (map fst l) -> In (k, x) l -> last_named k l x.
    Proof.
      intros ND H. apply in_split in H as (l1 & l2 & ->). exists l1, l2. split; [reflexivity|]. rewrite map_app in ND. apply NoDup_remove_2 in ND.
      intro H. apply ND. apply in_or_app. right. exact H.
    Qed.
    Lemma lookup_perm F k l1 l2 : Permutation l1 l2 -> NoDup (map fst l1) -> lookup_last k (nsrc F l1) = lookup_last k (nsrc F l2).
    Proof.
      intros P ND. destruct (lookup_last k (nsrc F l2)) as [e|] eqn:E.
      - apply lookup_some in E as (x & L & ->). apply lookup_last_named, last_named_nodup; [exact ND|]. eapply Permutation_in; [symmetry; exact P|]. apply last_named_in, L.
      - apply lookup_none in E. apply lookup_none. intro H. apply E. eapply Permutation_in; [|exact H]. apply Permutation_map, P.
    Qed.
    Lemma nsrc_length F l : length (nsrc F l) = length l. Proof. unfold nsrc. cbn [composite_map source_fields]. rewrite !map_length. reflexivity. Qed.
    Lemma nsrc_named F l : existsb named_field (nsrc F l) = match l with [] => false | _ => true end.
    Proof. destruct l as [|[k x] l]; [reflexivity|]. rewrite nsrc_cons. reflexivity. Qed.

    (** Fields which all have names. *)
    Definition named_fields (nfs : list (str * TId)) : list (field TId) := map (fun f => (Some (fst f), snd f)) nfs.
    Lemma named_fields_named nfs : existsb named_field (named_fields nfs) = match nfs with [] => false | _ => true end.
    Proof. destruct nfs; reflexivity. Qed.

    Lemma fields_perm F l1 l2 nfs out : Permutation l1 l2 -> NoDup (map fst l1) ->
      encode_fields (nsrc F l1) (named_fields nfs) out = encode_fields (nsrc F l2) (named_fields nfs) out.
    Proof.
      intros P ND. pose proof (Permutation_length P) as L. unfold encode_fields. rewrite !nsrc_named, !nsrc_length, <- L.
      destruct l1 as [|kx l1].
      - apply Permutation_nil in P. subst. reflexivity.
      - destruct l2 as [|ky l2]; [discriminate|]. rewrite andb_true_r, named_fields_named. destruct nfs as [|nf nfs].
        + destruct (_ =? _)%nat eqn:E; [|reflexivity]. discriminate.
        + remember (nf :: nfs) as N eqn:EN. clear EN. revert out. induction N as [|[k t] N IH]; intro out; [reflexivity|]. cbn [named_fields map encode_by_name].
          unfold key_of. cbn [fst snd]. rewrite (lookup_perm F k _ _ P ND). destruct (lookup_last k (nsrc F (ky :: l2))) as [e|]; [|reflexivity].
          destruct (e t out) as [[| |] o]; cbn [andthen]; try reflexivity. apply IH.
    Qed.

    (** One piece per target field, from the source entry with its name. *)
    Definition by_name (l : list (str * value T)) (nfs : list (str * TId)) (bs : bytes) : Prop :=
      exists xs, parts (ye T) (map snd nfs) xs bs /\ Forall2 (fun f x => last_named (fst f) l x) nfs xs.

    Lemma by_name_run F l nfs : forall out out', encode_by_name (nsrc F l) (named_fields nfs) out = (SOk, out') ->
      exists bs, out' = out ++ bs /\ by_name l nfs bs.
    Proof.
      induction nfs as [|[k t] nfs IH]; intros out out' H; cbn [named_fields map encode_by_name] in H.
      - injection H as <-. exists []. rewrite app_nil_r. split; [reflexivity|]. exists []. split; constructor.
      - unfold key_of in H. cbn [fst snd] in H. destruct (lookup_last k (nsrc F l)) as [e|] eqn:E; [|discriminate]. apply lookup_some in E as (x & L & ->).
        destruct (encode reg X F x t out) as [[| |] o1] eqn:E; cbn [andthen] in H; try discriminate.
        apply encode_ok_encodes in E as (b & -> & E). apply IH in H as (bs & -> & xs & P & FA).
        exists (b ++ bs). rewrite app_assoc. split; [reflexivity|]. exists (x :: xs). split; constructor; assumption.
    Qed.
    Lemma by_name_runs l nfs bs : by_name l nfs bs -> exists F0, forall F, (F0 <= F)%nat -> forall out,
      encode_by_name (nsrc F l) (named_fields nfs) out = (SOk, out ++ bs).
    Proof.
      intros (xs & P & FA). revert bs P. induction FA as [|[k t] x nfs xs L _ IH]; intros bs P; cbn [map snd] in P; inversion P as [|? ? ? ? b bs' E P']; subst.
      - exists 0%nat. intros F _ out. cbn. rewrite app_nil_r. reflexivity.
      - apply encodes_yields in E as [F1 H1]. destruct (IH _ P') as [F2 H2]. exists (Nat.max F1 F2). intros F HF out. cbn [named_fields map encode_by_name].
        unfold key_of. cbn [fst snd]. rewrite (lookup_last_named F k l x L). rewrite H1 by lia. cbn [andthen]. rewrite app_assoc. apply H2. lia.
    Qed.
  End Names.

  (** ** Composites *)
  Section Comp.
    Context {T : Type}.
    Definition items (F : nat) (c : composite (value T)) : composite (value T * encoder) := composite_map (fun x => (x, encode reg X F x)) c.
    Definition csrc (F : nat) (c : composite (value T)) : list (option str * encoder) := source_fields (composite_map (encode reg X F) c).

    Lemma items_values F c : values (items F c) = map (fun x => (x, encode reg X F x)) (values c).
    Proof. apply values_map. Qed.
    Lemma items_src F c : source_fields (composite_map snd (items F c)) = csrc F c.
    Proof. unfold items, csrc. destruct c; cbn [composite_map source_fields]; rewrite !map_map; reflexivity. Qed.
    Lemma items_encs F c : map snd (values (items F c)) = map (encode reg X F) (values c).
    Proof. rewrite items_values, map_map. reflexivity. Qed.
    Lemma items_vals F c : map fst (values (items F c)) = values c.
    Proof. rewrite items_values, map_map. apply map_id. Qed.
    Lemma items_len F c : clen (items F c) = length (values c).
    Proof. rewrite clen_values, items_values, map_length. reflexivity. Qed.
    Lemma csrc_length F c : length (csrc F c) = length (values c).
    Proof. unfold csrc. destruct c; cbn [composite_map source_fields values]; rewrite !map_length; reflexivity. Qed.
    Lemma csrc_snd F c : map snd (csrc F c) = map (encode reg X F) (values c).
    Proof. unfold csrc. rewrite source_fields_snd, values_map. reflexivity. Qed.

    Lemma not_single {A} (l : list A) : length l <> 1%nat -> forall {B} (f : A -> B) b, match l with [x] => f x | _ => b end = b.
    Proof. destruct l as [|x [|]]; cbn; intros; congruence. Qed.

    (** Not exactly one value: the encoder does not peel. *)
    Lemma composite_run F c ctx t out : length (values c) <> 1%nat ->
      encode reg X F (Val (DComposite c) ctx) t out =
      match do_encode reg F (items F c) t [] with
      | (SOk, tmp) => (SOk, out ++ tmp)
      | (SHang, _) => (SHang, out)
      | (SErr e, _) => match find_single reg F t false with
                       | None => (SHang, out)
                       | Some (t', true) => match do_encode reg F (items F c) t' [] with
                                            | (SOk, tmp) => (SOk, out ++ tmp)
                                            | (SHang, _) => (SHang, out)
                                            | (SErr _, _) => (SErr e, out)
                                            end
                       | Some (_, false) => (SErr e, out)
                       end
      end.
    Proof.
      intro HL. assert (HL' : length (values (items F c)) <> 1%nat) by (rewrite items_values, map_length; exact HL).
      cbn [encode]. change (composite_map (fun x => (x, encode reg X F x)) c) with (items F c). unfold encode_composite.
      destruct (do_encode reg F (items F c) t []) as [[|e|] tmp]; try reflexivity.
      destruct (find_single reg F t false) as [[t' d]|]; [|reflexivity].
      destruct (values (items F c)) as [|a [|b l]]; cbn in HL'; try lia;
        (destruct d; [destruct (do_encode reg F (items F c) t' []) as [[| |] ?]; reflexivity|reflexivity]).
    Qed.

    (** The first attempt decides whenever it succeeds. *)
    Lemma composite_first F c ctx t out tmp : do_encode reg F (items F c) t [] = (SOk, tmp) ->
      encode reg X F (Val (DComposite c) ctx) t out = (SOk, out ++ tmp).
    Proof.
      intro H. cbn [encode]. change (composite_map (fun x => (x, encode reg X F x)) c) with (items F c). unfold encode_composite. rewrite H. reflexivity.
    Qed.
    Lemma composite_first_ev c ctx t b : (exists F0, forall F, (F0 <= F)%nat -> do_encode reg F (items F c) t [] = (SOk, b)) -> encodes (Val (DComposite c) ctx) t b.
    Proof. intros [F0 H]. exists F0. intro out. apply composite_first, H. lia. Qed.

    Definition stop (u : TId) : Prop := forall w, ~ wraps reg u w.
    Lemma find_stop F u c : stop u -> find_single reg (S F) u c = Some (u, c).
    Proof.
      intro H. cbn [find_single]. destruct (reg u) as [| |[fs|vs|t'|t' n|ts|p|t'|st o]] eqn:R; try reflexivity.
      - destruct fs as [|[nm t'] [|]]; try reflexivity. exfalso. apply (H t'). apply W_one. eapply W_struct, R.
      - destruct (N.eqb_spec n 1) as [->|]; [|reflexivity]. exfalso. apply (H t'). apply W_array, R.
      - destruct ts as [|t' [|]]; try reflexivity. exfalso. apply (H t'). apply W_one, W_tuple, R.
    Qed.
    Lemma find_step F t t' c : wraps reg t t' -> find_single reg (S F) t c = find_single reg F t' true.
    Proof. intros [? ? [? nm ? R|? ? R]|? ? R]; cbn [find_single]; rewrite R; reflexivity. Qed.
    Lemma find_chain t u : chain (wraps reg) t u -> stop u -> exists F0, forall F, (F0 <= F)%nat -> find_single reg F t true = Some (u, true).
    Proof.
      induction 1 as [t|t t' u W _ IH]; intro St.
      - exists 1%nat. intros [|F] HF; [lia|]. apply find_stop, St.
      - destruct (IH St) as [F0 H]. exists (S F0). intros [|F] HF; [lia|]. rewrite (find_step F t t' true W). apply H. lia.
    Qed.
    Lemma find_chain' t t' u : wraps reg t t' -> chain (wraps reg) t' u -> stop u -> exists F0, forall F, (F0 <= F)%nat -> find_single reg F t false = Some (u, true).
    Proof.
      intros W Ch St. destruct (find_chain t' u Ch St) as [F0 H]. exists (S F0). intros [|F] HF; [lia|]. rewrite (find_step F t t' false W). apply H. lia.
    Qed.

    (** At a type which is not a wrapper, the first attempt is all there is. *)
    Lemma composite_stop F c ctx t out out' : length (values c) <> 1%nat -> stop t ->
      (encode reg X F (Val (DComposite c) ctx) t out = (SOk, out') <-> exists tmp, do_encode reg F (items F c) t [] = (SOk, tmp) /\ out' = out ++ tmp).
    Proof.
      intros HL St. rewrite composite_run by exact HL. split.
      - destruct (do_encode reg F (items F c) t []) as [[|e|] tmp]; try discriminate.
        + intros [= <-]. eauto.
        + destruct F as [|F]; [discriminate|]. rewrite find_stop by exact St. discriminate.
      - intros (tmp & -> & ->). reflexivity.
    Qed.
    Lemma encodes_stop c ctx t b : length (values c) <> 1%nat -> stop t -> encodes (Val (DComposite c) ctx) t b ->
      exists F, do_encode reg F (items F c) t [] = (SOk, b).
    Proof. intros HL St [F H]. exists F. specialize (H []). apply composite_stop in H as (tmp & H & E); [|exact HL|exact St]. cbn in E. subst. exact H. Qed.

    Local Notation ye := (fun t (v : value T) b => encodes v t b).
    Lemma stop_other t ty : reg t = ResTy ty -> match ty with TComposite [_] | TTuple [_] => False | TArray _ n => n <> 1 | _ => True end -> stop t.
    Proof. intros R H w W. destruct W as [? ? [? nm ? R'|? ? R']|? ? R']; rewrite R in R'; injection R' as ->; auto. Qed.

    (** Sequences. *)
    Lemma seq_runs c ctx t t' bs : reg t = ResTy (TSequence t') -> N.of_nat (length (values c)) < 2 ^ 32 -> parts ye (repeat t' (length (values c))) (values c) bs ->
      encodes (Val (DComposite c) ctx) t (compact_encode (N.of_nat (length (values c))) ++ bs).
    Proof.
      intros R HN P. apply composite_first_ev. apply parts_ey in P. destruct (all_yields reg X (fun _ => ctx) _ _ _ P) as [F0 H]. exists F0. intros F HF.
      unfold do_encode. rewrite R, items_encs, items_len, mod32 by exact HN. rewrite H by exact HF. reflexivity.
    Qed.
    Lemma seq_run c ctx t t' b : reg t = ResTy (TSequence t') -> N.of_nat (length (values c)) < 2 ^ 32 -> length (values c) <> 1%nat ->
      encodes (Val (DComposite c) ctx) t b -> exists bs, b = compact_encode (N.of_nat (length (values c))) ++ bs /\ parts ye (repeat t' (length (values c))) (values c) bs.
    Proof.
      intros R HN HL E. apply encodes_stop in E as [F E]; [|exact HL|eapply stop_other; [exact R|exact I]].
      unfold do_encode in E. rewrite R, items_encs, items_len, mod32 in E by exact HN. apply all_parts in E as (bs & -> & P). exists bs. auto.
    Qed.

    (** Arrays. *)
    Lemma array_runs c ctx t t' n bs : reg t = ResTy (TArray t' n) -> N.of_nat (length (values c)) = n -> parts ye (repeat t' (length (values c))) (values c) bs ->
      encodes (Val (DComposite c) ctx) t bs.
    Proof.
      intros R HN P. apply composite_first_ev. apply parts_ey in P. destruct (all_yields reg X (fun _ => ctx) _ _ _ P) as [F0 H]. exists F0. intros F HF.
      unfold do_encode. rewrite R, items_encs, items_len, HN, N.eqb_refl. rewrite H by exact HF. reflexivity.
    Qed.
    Lemma array_run c ctx t t' n b : reg t = ResTy (TArray t' n) -> n <> 1 -> length (values c) <> 1%nat ->
      encodes (Val (DComposite c) ctx) t b -> N.of_nat (length (values c)) = n /\ parts ye (repeat t' (length (values c))) (values c) b.
    Proof.
      intros R HN HL E. apply encodes_stop in E as [F E]; [|exact HL|eapply stop_other; [exact R|exact HN]].
      unfold do_encode in E. rewrite R, items_encs, items_len in E. destruct (N.eqb_spec (N.of_nat (length (values c))) n) as [En|]; [|discriminate].
      apply all_parts in E as (bs & -> & P). auto.
    Qed.

    (** Tuples, and structs matched by position. *)
    Definition positional (c : composite (value T)) (fs : list (field TId)) : Prop :=
      match c with Unnamed _ => True | Named _ => Forall (fun f => fst f = None) fs end.
    Lemma positional_cond F c fs : positional c fs -> existsb named_field fs && existsb named_field (csrc F c) = false.
    Proof.
      destruct c as [l|l]; cbn [positional]; intro H.
      - replace (existsb named_field fs) with false; [reflexivity|]. symmetry. induction H as [|[n t] fs E _ IH]; [reflexivity|]. cbn in E. subst n. exact IH.
      - unfold csrc. cbn [composite_map source_fields]. rewrite existsb_named_none. apply andb_false_r.
    Qed.
    Lemma fields_in_order F c fs out : positional c fs -> encode_fields (csrc F c) fs out =
      if (length fs =? length (values c))%nat then encode_in_order (map (encode reg X F) (values c)) (map snd fs) out else (SErr XWrongLength, out).
    Proof. intro H. unfold encode_fields. rewrite positional_cond by exact H. rewrite csrc_length, csrc_snd. reflexivity. Qed.

    Lemma skip_stop F t : stop t -> skip_through reg (S F) t = Some t.
    Proof.
      intro H. cbn [skip_through]. destruct (reg t) as [| |[fs|vs|t'|t' n|ts|p|t'|st o]] eqn:R; try reflexivity.
      - destruct fs as [|[[nm|] t'] [|]]; try reflexivity. exfalso. apply (H t'). apply W_one. eapply W_struct, R.
      - destruct ts as [|t' [|]]; try reflexivity. exfalso. apply (H t'). apply W_one, W_tuple, R.
    Qed.
    Lemma struct_at F c t out : stop t -> length (values c) <> 1%nat -> encode_struct reg (S F) (csrc (S F) c) t out =
      match reg t with
      | ResErr => (SErr XTypeResolving, out)
      | ResTy (TComposite fs) => encode_fields (csrc (S F) c) fs out
      | ResTy (TTuple ts) => encode_fields (csrc (S F) c) (map (fun t => (None, t)) ts) out
      | _ => (SErr XWrongShape, out)
      end.
    Proof.
      intros St HL. unfold encode_struct. rewrite skip_stop by exact St. pose proof (csrc_length (S F) c) as L.
      destruct (csrc (S F) c) as [|[[n|] e] [|]]; cbn in L; try lia; reflexivity.
    Qed.
    Lemma do_encode_struct F c t out : (exists fs, reg t = ResTy (TComposite fs)) \/ (exists ts, reg t = ResTy (TTuple ts)) ->
      do_encode reg F (items F c) t out = encode_struct reg F (csrc F c) t out.
    Proof. unfold do_encode. rewrite items_src. intros [[fs R]|[ts R]]; rewrite R; reflexivity. Qed.

    Lemma tuple_fields ts : map snd (map (fun t : TId => (@None str, t)) ts) = ts. Proof. rewrite map_map. apply map_id. Qed.
    Lemma tuple_positional c ts : positional c (map (fun t => (None, t)) ts).
    Proof. destruct c; [|exact I]. cbn. apply Forall_map, Forall_forall. reflexivity. Qed.

    Lemma struct_iff c ctx t fs b : (reg t = ResTy (TComposite fs) \/ exists ts, reg t = ResTy (TTuple ts) /\ fs = map (fun t => (None, t)) ts) -> length fs <> 1%nat ->
      length (values c) <> 1%nat -> positional c fs ->
      (encodes (Val (DComposite c) ctx) t b <-> parts ye (map snd fs) (values c) b).
    Proof.
      intros R Hf HL HP.
      assert (St : stop t).
      { destruct R as [R|(ts & R & ->)]; (eapply stop_other; [exact R|]); [destruct fs as [|? [|]]|destruct ts as [|? [|]]]; cbn in Hf; auto; lia. }
      assert (DE : forall F, do_encode reg (S F) (items (S F) c) t [] =
         if (length fs =? length (values c))%nat then encode_in_order (map (encode reg X (S F)) (values c)) (map snd fs) [] else (SErr XWrongLength, [])).
      { intro F. rewrite do_encode_struct by (destruct R as [R|(ts & R & _)]; eauto). rewrite struct_at by assumption.
        destruct R as [R|(ts & R & ->)]; rewrite R; apply fields_in_order; assumption. }
      split.
      - intro E. apply encodes_stop in E as [F E]; [|exact HL|exact St].
        destruct F as [|F]; [rewrite do_encode_struct in E by (destruct R as [R|(ts & R & _)]; eauto); discriminate|]. rewrite DE in E.
        destruct (Nat.eqb_spec (length fs) (length (values c))) as [EL|]; [|discriminate].
        apply in_order_parts in E as (bs & -> & P); [exact P|rewrite map_length; auto].
      - intro P. apply composite_first_ev. pose proof (parts_length _ _ _ _ P) as L. rewrite map_length in L. apply parts_ey in P.
        destruct (in_order_yields reg X (fun _ => ctx) _ _ _ P) as [F0 H]. exists (S F0). intros [|F] HF; [lia|]. rewrite DE, L, Nat.eqb_refl. rewrite H by lia. reflexivity.
    Qed.

    (** Structs matched by name. *)
    Lemma named_runs (l : list (str * value T)) ctx t nfs b : reg t = ResTy (TComposite (named_fields nfs)) -> nfs <> [] -> by_name l nfs b -> encodes (Val (DComposite (Named l)) ctx) t b.
    Proof.
      intros R Hn BN. apply composite_first_ev. assert (Hl : l <> []).
      { destruct BN as (xs & _ & FA). destruct FA as [|f x ? ? (l1 & l2 & -> & _)]; [contradiction|]. destruct l1; discriminate. }
      destruct (by_name_runs _ _ _ BN) as [F0 H]. exists (S F0). intros [|F] HF; [lia|]. rewrite do_encode_struct by eauto. unfold encode_struct.
      assert (SK : skip_through reg (S F) t = Some t) by (cbn [skip_through]; rewrite R; destruct nfs as [|? [|]]; reflexivity). rewrite SK, R.
      assert (EF : encode_fields (csrc (S F) (Named l)) (named_fields nfs) [] = (SOk, b)).
      { unfold encode_fields. change (csrc (S F) (Named l)) with (nsrc (S F) l). rewrite nsrc_named, named_fields_named.
        destruct l as [|kx l]; [contradiction|]. destruct nfs as [|nf nfs]; [contradiction|]. cbn [andb]. rewrite H by lia. reflexivity. }
      destruct l as [|[k x] [|[k2 x2] l]]; [contradiction| |]; exact EF.
    Qed.
    Lemma named_run (l : list (str * value T)) ctx t nfs b : reg t = ResTy (TComposite (named_fields nfs)) -> (2 <= length nfs)%nat -> length l <> 1%nat ->
      encodes (Val (DComposite (Named l)) ctx) t b -> by_name l nfs b.
    Proof.
      intros R Hn HL E. assert (HV : length (values (Named l)) <> 1%nat) by (cbn [values]; rewrite map_length; exact HL).
      assert (St : stop t) by (eapply stop_other; [exact R|]; destruct nfs as [|? [|]]; cbn in *; auto; lia).
      apply encodes_stop in E as [F E]; [|exact HV|exact St]. rewrite do_encode_struct in E by eauto. destruct F as [|F]; [discriminate|].
      rewrite struct_at, R in E by assumption. unfold encode_fields in E. change (csrc (S F) (Named l)) with (nsrc (S F) l) in E.
      rewrite nsrc_named, named_fields_named, nsrc_length in E. destruct nfs as [|nf nfs]; [cbn in Hn; lia|]. destruct l as [|kx l].
      - cbn [andb] in E. destruct (_ =? _)%nat eqn:EL; discriminate.
      - cbn [andb] in E. apply by_name_run in E as (bs & -> & B). exact B.
    Qed.
    Lemma named_perm F (l1 l2 : list (str * value T)) ctx t nfs out : reg t = ResTy (TComposite (named_fields nfs)) -> length nfs <> 1%nat -> Permutation l1 l2 -> NoDup (map fst l1) ->
      encode reg X F (Val (DComposite (Named l1)) ctx) t out = encode reg X F (Val (DComposite (Named l2)) ctx) t out.
    Proof.
      intros R Hn P ND. destruct (Nat.eq_dec (length l1) 1) as [E1|E1].
      { destruct l1 as [|a [|]]; try discriminate. apply Permutation_length_1_inv in P. subst. reflexivity. }
      pose proof (Permutation_length P) as EL.
      assert (St : stop t) by (eapply stop_other; [exact R|]; destruct nfs as [|? [|]]; cbn in *; auto; lia).
      rewrite !composite_run by (cbn [values]; rewrite map_length; lia).
      assert (D : do_encode reg F (items F (Named l1)) t [] = do_encode reg F (items F (Named l2)) t []).
      { rewrite !do_encode_struct by eauto. destruct F as [|F]; [reflexivity|]. rewrite !struct_at by (try exact St; cbn [values]; rewrite map_length; lia). rewrite R.
        apply (fields_perm (S F) l1 l2 nfs [] P ND). }
      rewrite D. destruct F as [|F]; [reflexivity|]. rewrite find_stop by exact St. reflexivity.
    Qed.

    (** Bit sequences. *)
    Lemma bits_runs b t st o (ctx : T) : reg t = ResTy (TBitSeq st o) -> encodes (Val (DBits b) ctx) t (encode_bits st o b).
    Proof. intro R. exists 1%nat. intro out. cbn [encode]. unfold encode_bitseq, encode_leaf. cbn [find_single]. rewrite R, R. reflexivity. Qed.
    Lemma bools_iff (c : composite (value T)) ctx t st o b : reg t = ResTy (TBitSeq st o) ->
      (encodes (Val (DComposite c) ctx) t b <->
       (exists bits, Forall2 is_bit (values c) bits /\ b = encode_bits st o bits) \/ (exists x : value T, values c = [x] /\ encodes x t b)).
    Proof.
      intro R. assert (St : stop t) by (eapply stop_other; [exact R|exact I]).
      assert (DE : forall F, do_encode reg F (items F c) t [] = match bits_of (values c) with Some b => (SOk, encode_bits st o b) | None => (SErr XBadBit, []) end).
      { intro F. unfold do_encode. rewrite R, items_vals. reflexivity. }
      split.
      - intros [F H]. specialize (H []). cbn [encode] in H. change (composite_map (fun x => (x, encode reg X F x)) c) with (items F c) in H.
        unfold encode_composite in H. rewrite DE in H. destruct (bits_of (values c)) as [bits|] eqn:B.
        + injection H as H. left. exists bits. split; [apply bits_of_iff, B|symmetry; exact H].
        + destruct F as [|F]; [discriminate|]. rewrite find_stop in H by exact St. rewrite items_values in H. right.
          destruct (values c) as [|x [|]]; try discriminate. exists x. split; [reflexivity|]. cbn [map snd] in H.
          destruct (encode reg X (S F) x t []) as [[| |] tmp] eqn:E; try discriminate. injection H as ->. apply encode_ok_encodes in E as (b' & -> & E). exact E.
      - intros [(bits & FA & ->)|(x & E & H)].
        + apply bits_of_iff in FA. apply composite_first_ev. exists 0%nat. intros F _. rewrite DE, FA. reflexivity.
        + destruct (bits_of (values c)) as [bits|] eqn:B.
          * exfalso. rewrite E in B. cbn [bits_of] in B. destruct (bit_of x) as [y|] eqn:BX; [|discriminate]. apply bit_of_iff in BX. destruct H as [F H]. specialize (H []).
            inversion BX; subst; cbn [encode encode_primitive] in H; unfold encode_bool, encode_leaf, encode_number in H;
              (destruct F as [|F]; [discriminate|]; rewrite find_stop in H by exact St; rewrite R in H; discriminate).
          * apply encodes_yields in H as [F0 H]. exists (S F0). intro out. cbn [encode]. change (composite_map (fun x => (x, encode reg X (S F0) x)) c) with (items (S F0) c).
            unfold encode_composite. rewrite DE, find_stop, items_values, E by exact St. cbn [map snd]. rewrite H by lia. reflexivity.
    Qed.
  End Comp.
End More.
