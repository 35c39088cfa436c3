(** * SharedFacts: proofs about MapShared. *)
From Coq Require Import Sorting.Sorted.
From Verif Require Import Base Value Spec_Value ValueFacts MapShared Spec_Shared.

Section Calls.
  Context {S G T U : Type} (f : S -> G -> T -> U * S * G).
  Notation call := (call S G T U).

  Definition down (i : nat) (c : call) : call :=
    Call (i :: place c) (own c) (shared c) (arg c) (answer c) (own_after c) (shared_after c).

  Lemma handed_app (g : G) (cs : list call) g' cs' g'' : handed_on g cs g' -> handed_on g' cs' g'' -> handed_on g (cs ++ cs') g''.
  Proof.
    revert g; induction cs as [|c cs IH]; intros g; cbn [handed_on app]; [now intros ->|].
    intros [H1 H2] H3. split; [exact H1|]. now apply IH.
  Qed.
  Lemma handed_down i (g : G) (cs : list call) g' : handed_on g cs g' -> handed_on g (map (down i) cs) g'.
  Proof.
    revert g; induction cs as [|c cs IH]; intros g; cbn [handed_on map]; [auto|]. intros [H1 H2]. split; [exact H1|now apply IH].
  Qed.

  (** A list of calls that belongs to a value. *)
  Definition belongs (s : S) (v : value T) (w : value U) (cs : list call) : Prop :=
    (forall p, In p (map place cs) <-> node_at v p <> None) /\
    StronglySorted comes_before (map place cs) /\
    forall c, In c cs ->
      f (own c) (shared c) (arg c) = (answer c, own_after c, shared_after c) /\
      option_map ctx_of (node_at v (place c)) = Some (arg c) /\
      option_map ctx_of (node_at w (place c)) = Some (answer c) /\
      (place c = [] -> own c = s) /\
      (forall c' i, In c' cs -> place c = place c' ++ [i] -> own c = own_after c').

  (** ... to the children from number [k] on. *)
  Definition belong (s : S) (k : nat) (l : list (value T)) (r : list (value U)) (cs : list call) : Prop :=
    (forall p, In p (map place cs) <-> exists i q v, p = (k + i) :: q /\ nth_error l i = Some v /\ node_at v q <> None) /\
    StronglySorted comes_before (map place cs) /\
    forall c, In c cs ->
      f (own c) (shared c) (arg c) = (answer c, own_after c, shared_after c) /\
      (exists i q v w, place c = (k + i) :: q /\ nth_error l i = Some v /\ nth_error r i = Some w /\
         option_map ctx_of (node_at v q) = Some (arg c) /\ option_map ctx_of (node_at w q) = Some (answer c)) /\
      (forall i, place c = [i] -> own c = s) /\
      (forall c' i, In c' cs -> place c = place c' ++ [i] -> own c = own_after c').

  Lemma before_cons i p q : comes_before p q -> comes_before (i :: p) (i :: q).
  Proof.
    intros [(j & r & ->)|(c & a & b & r & r' & -> & -> & H)].
    - left. now exists j, r.
    - right. exists (i :: c), a, b, r, r'. now repeat split.
  Qed.
  Lemma sorted_cons i l : StronglySorted comes_before l -> StronglySorted comes_before (map (cons i) l).
  Proof.
    induction 1 as [|a l H IH HF]; cbn [map]; constructor; [exact IH|]. rewrite Forall_map.
    eapply Forall_impl; [|exact HF]. intros q. apply before_cons.
  Qed.
  Lemma sorted_app (l l' : list (list nat)) : StronglySorted comes_before l -> StronglySorted comes_before l' ->
    (forall a b, In a l -> In b l' -> comes_before a b) -> StronglySorted comes_before (l ++ l').
  Proof.
    induction 1 as [|a l H IH HF]; intros H' HB; cbn [app]; [exact H'|]. constructor.
    - apply IH; [exact H'|]. intros x y Hx Hy. apply HB; [now right|exact Hy].
    - apply Forall_app. split; [exact HF|]. apply Forall_forall. intros y Hy. apply HB; [now left|exact Hy].
  Qed.

  Lemma app_single_cons (i j : nat) (p q : list nat) (x : nat) : i :: p = (j :: q) ++ [x] -> i = j /\ p = q ++ [x].
  Proof. cbn [app]. intro H. now injection H. Qed.

  Lemma list_calls s l : Forall (fun v => forall s g, exists cs,
      handed_on g cs (snd (map_shared f s v g)) /\ belongs s v (fst (map_shared f s v g)) cs) l ->
    forall k g, exists cs, handed_on g cs (snd (in_turn (map_shared f s) l g)) /\ belong s k l (fst (in_turn (map_shared f s) l g)) cs.
  Proof.
    induction 1 as [|v l Hv Hl IH]; intros k g; cbn [in_turn].
    - exists []. split; [reflexivity|]. split; [|split; [constructor|intros c []]].
      intro p. split; [intros []|]. intros (i & q & v & _ & H & _). now destruct i.
    - destruct (Hv s g) as (cs & H1 & Hp & Hs & Hc). destruct (map_shared f s v g) as [w g1]. cbn [fst snd] in H1, Hc.
      destruct (IH (k + 1) g1) as (cs' & H1' & Hp' & Hs' & Hc'). destruct (in_turn (map_shared f s) l g1) as [r g2]. cbn [fst snd] in *.
      assert (Em : map place (map (down k) cs) = map (cons k) (map place cs)) by (rewrite !map_map; apply map_ext; reflexivity).
      exists (map (down k) cs ++ cs'). split; [|split; [|split]].
      + eapply handed_app; [apply handed_down; exact H1|exact H1'].
      + intro p. rewrite map_app, in_app_iff, Em, in_map_iff, Hp'. split.
        * intros [(q & <- & Hq)|(i & q & x & -> & Hx & Hn)].
          -- exists 0, q, v. rewrite Nat.add_0_r. repeat split. now apply Hp.
          -- exists (Datatypes.S i), q, x. split; [f_equal; lia|]. split; assumption.
        * intros ([|i] & q & x & -> & Hx & Hn).
          -- injection Hx as ->. left. exists q. rewrite Nat.add_0_r. split; [reflexivity|]. now apply Hp.
          -- right. exists i, q, x. split; [f_equal; lia|]. split; assumption.
      + rewrite map_app, Em. apply sorted_app; [now apply sorted_cons|exact Hs'|].
        intros a b Ha Hb. apply in_map_iff in Ha as (q & <- & _). apply Hp' in Hb as (i & q' & x & -> & _).
        right. exists [], k, (k + 1 + i), q, q'. repeat split. lia.
      + intros c Hin. apply in_app_iff in Hin as [Hin|Hin].
        * apply in_map_iff in Hin as (c0 & <- & Hin). destruct (Hc c0 Hin) as (E1 & E2 & E3 & E4 & E5).
          split; [exact E1|]. split; [|split].
          -- exists 0, (place c0), v, w. cbn [down place arg answer]. rewrite Nat.add_0_r. repeat split; assumption.
          -- cbn [down place own]. intros i Hi. injection Hi as _ Hi. now apply E4.
          -- intros c' i Hin' Hpl. cbn [down place own] in *. apply in_app_iff in Hin' as [Hin'|Hin'].
             ++ apply in_map_iff in Hin' as (c1 & <- & Hin1). cbn [down place own_after] in *. apply app_single_cons in Hpl as [_ Hpl].
                now apply (E5 c1 i).
             ++ exfalso. assert (Hx : In (place c') (map place cs')) by now apply in_map. apply Hp' in Hx as (j & q & x & Ej & _).
                rewrite Ej in Hpl. apply app_single_cons in Hpl as [Hpl _]. lia.
        * destruct (Hc' c Hin) as (E1 & (i & q & x & w' & Ep & Ex & Ew & Ea & Er) & E4 & E5).
          split; [exact E1|]. split; [|split].
          -- exists (Datatypes.S i), q, x, w'. split; [rewrite Ep; f_equal; lia|]. repeat split; assumption.
          -- exact E4.
          -- intros c' j Hin' Hpl. apply in_app_iff in Hin' as [Hin'|Hin'].
             ++ apply in_map_iff in Hin' as (c1 & <- & Hin1). cbn [down place] in Hpl. rewrite Ep in Hpl.
                apply app_single_cons in Hpl as [Hpl _]. lia.
             ++ now apply (E5 c' j).
  Qed.

  (** Children of a definition, whatever its kind. *)
  Lemma in_turn_named {A B} (h : A -> G -> B * G) (l : list (str * A)) g :
    in_turn (fun kv g => let (b, g') := h (snd kv) g in ((fst kv, b), g')) l g =
    (combine (map fst l) (fst (in_turn h (map snd l) g)), snd (in_turn h (map snd l) g)).
  Proof.
    revert g; induction l as [|[k a] l IH]; intro g; cbn [in_turn map fst snd combine]; [reflexivity|].
    destruct (h a g) as [b g1]. rewrite IH. destruct (in_turn h (map snd l) g1) as [r g2]. reflexivity.
  Qed.
  Lemma in_turn_len {A B} (h : A -> G -> B * G) l g : length (fst (in_turn h l g)) = length l.
  Proof.
    revert g; induction l as [|a l IH]; intro g; cbn [in_turn]; [reflexivity|]. destruct (h a g) as [b g1]. specialize (IH g1).
    destruct (in_turn h l g1) as [r g2]. cbn [fst length] in *. now rewrite IH.
  Qed.
  Lemma combine_fst {A B} (a : list A) (b : list B) : length a = length b -> map fst (combine a b) = a.
  Proof. revert b; induction a as [|x a IH]; intros [|y b] H; cbn in *; try discriminate; [reflexivity|]. f_equal. apply IH. congruence. Qed.
  Lemma combine_snd {A B} (a : list A) (b : list B) : length a = length b -> map snd (combine a b) = b.
  Proof. revert b; induction a as [|x a IH]; intros [|y b] H; cbn in *; try discriminate; [reflexivity|]. f_equal. apply IH. congruence. Qed.

  Lemma composite_turn {A B} (h : A -> G -> B * G) (c : composite A) g :
    values (fst (composite_in_turn h c g)) = fst (in_turn h (values c) g) /\
    snd (composite_in_turn h c g) = snd (in_turn h (values c) g).
  Proof.
    destruct c as [l|l]; cbn [composite_in_turn values].
    - rewrite in_turn_named. cbn [fst snd values]. split; [|reflexivity]. apply combine_snd. now rewrite in_turn_len, !map_length.
    - destruct (in_turn h l g) as [r g']. split; reflexivity.
  Qed.

  Lemma fields_children {A} (v : value A) : fields_of v = children (vdef_of v).
  Proof. now destruct v as [[[l|l]|n [l|l]|b|p] c]. Qed.

  Lemma def_turn (h : value T -> G -> value U * G) (d : vdef (value T)) g :
    children (fst (vdef_in_turn h d g)) = fst (in_turn h (children d) g) /\
    snd (vdef_in_turn h d g) = snd (in_turn h (children d) g).
  Proof.
    destruct d as [c|n c|b|p]; cbn [vdef_in_turn children]; try (split; reflexivity);
      pose proof (composite_turn h c g) as [H1 H2]; destruct (composite_in_turn h c g) as [c' g']; split; assumption.
  Qed.

  Lemma calls_of v : forall s g, exists cs,
    handed_on g cs (snd (map_shared f s v g)) /\ belongs s v (fst (map_shared f s v g)) cs.
  Proof.
    induction v as [d ctx IH] using value_ind'. intros s g. cbn [map_shared].
    destruct (f s g ctx) as [[u s1] g1] eqn:Ef.
    destruct (list_calls s1 (children d) IH 0 g1) as (cs & H1 & Hp & Hs & Hc).
    pose proof (def_turn (map_shared f s1) d g1) as [D1 D2]. change (fun c g => map_shared f s1 c g) with (map_shared f s1).
    destruct (vdef_in_turn (map_shared f s1) d g1) as [d' g2]. cbn [fst snd] in *. subst g2. rewrite <- D1 in Hc.
    set (c0 := Call [] s g ctx u s1 g1).
    assert (Hne : forall c, In c cs -> place c <> []).
    { intros c Hin E. destruct (Hc c Hin) as (_ & (i & q & x & w & Ep & _) & _). congruence. }
    exists (c0 :: cs). split; [|split; [|split]].
    - split; [reflexivity|exact H1].
    - intro p. cbn [map]. destruct p as [|i p].
      + split; [intros _; discriminate|]. intros _. now left.
      + cbn [node_at]. rewrite fields_children. cbn [vdef_of]. split.
        * intros [E|Hin]; [discriminate|]. apply Hp in Hin as (j & q & x & E & Hx & Hn). injection E as -> ->. cbn [Nat.add].
          rewrite Hx. exact Hn.
        * intro H. right. apply Hp. destruct (nth_error (children d) i) as [x|] eqn:Ex; [|contradiction].
          exists i, p, x. repeat split; assumption.
    - cbn [map place c0]. constructor; [exact Hs|]. apply Forall_forall. intros q Hq. left. apply Hp in Hq as (i & q' & x & -> & _).
      now exists (0 + i), q'.
    - intros c [<-|Hin].
      + split; [exact Ef|]. split; [reflexivity|]. split; [reflexivity|]. split; [reflexivity|].
        intros c' i _ E. exfalso. destruct (place c'); discriminate.
      + destruct (Hc c Hin) as (E1 & (i & q & x & w & Ep & Ex & Ew & Ea & Er) & E4 & E5).
        split; [exact E1|]. rewrite Ep. cbn [Nat.add node_at]. rewrite !fields_children. cbn [vdef_of]. rewrite Ex, Ew.
        split; [exact Ea|]. split; [exact Er|]. split; [discriminate|].
        intros c' j [<-|Hin'] E.
        * cbn [place c0 app own_after] in *. injection E as -> ->. now apply (E4 j).
        * rewrite Ep in E5. now apply (E5 c' j).
  Qed.

  Lemma label_turn s v : forall g, label_of (fst (map_shared f s v g)) = label_of v.
  Proof.
    intro g. destruct v as [d ctx]. cbn [map_shared]. destruct (f s g ctx) as [[u s1] g1].
    destruct d as [[l|l]|n [l|l]|b|p]; cbn [vdef_in_turn composite_in_turn]; try reflexivity.
    - rewrite in_turn_named. cbn [fst snd label_of]. f_equal. apply combine_fst. now rewrite in_turn_len, !map_length.
    - pose proof (in_turn_len (map_shared f s1) l g1) as H. change (fun c g => map_shared f s1 c g) with (map_shared f s1).
      destruct (in_turn (map_shared f s1) l g1) as [r g2]. cbn [fst snd label_of] in *. congruence.
    - rewrite in_turn_named. cbn [fst snd label_of]. f_equal. apply combine_fst. now rewrite in_turn_len, !map_length.
    - pose proof (in_turn_len (map_shared f s1) l g1) as H. change (fun c g => map_shared f s1 c g) with (map_shared f s1).
      destruct (in_turn (map_shared f s1) l g1) as [r g2]. cbn [fst snd label_of] in *. congruence.
  Qed.
  Lemma in_turn_nth {A B} (h : A -> G -> B * G) l : forall g i,
    match nth_error l i with
    | Some a => exists g', nth_error (fst (in_turn h l g)) i = Some (fst (h a g'))
    | None => nth_error (fst (in_turn h l g)) i = None
    end.
  Proof.
    induction l as [|a l IH]; intros g [|i]; cbn [nth_error in_turn]; try reflexivity.
    - exists g. destruct (h a g) as [b g1]. destruct (in_turn h l g1) as [r g2]. reflexivity.
    - destruct (h a g) as [b g1]. specialize (IH g1 i). destruct (in_turn h l g1) as [r g2]. cbn [fst nth_error] in *. exact IH.
  Qed.
  Lemma shape_turn v : forall s g, same_shape v (fst (map_shared f s v g)).
  Proof.
    intros s g p. revert v s g. induction p as [|i p IH]; intros v s g; cbn [node_at option_map]; [now rewrite label_turn|].
    rewrite !fields_children. destruct v as [d ctx]. cbn [map_shared vdef_of]. destruct (f s g ctx) as [[u s1] g1].
    pose proof (def_turn (map_shared f s1) d g1) as [D1 _]. change (fun c g => map_shared f s1 c g) with (map_shared f s1).
    destruct (vdef_in_turn (map_shared f s1) d g1) as [d' g2]. cbn [fst vdef_of] in *. rewrite D1.
    pose proof (in_turn_nth (map_shared f s1) (children d) g1 i) as H.
    destruct (nth_error (children d) i) as [x|]; [|now rewrite H]. destruct H as [g' ->]. apply IH.
  Qed.
End Calls.

(** Without anything shared this is [map_context] of Value.v. *)
Lemma map_shared_alone {S T U} (f : S -> T -> U * S) v : forall s,
  map_shared (fun s (_ : unit) t => (f s t, tt)) s v tt = (map_context f s v, tt).
Proof.
  induction v as [d ctx IH] using value_ind'. intro s. cbn [map_shared map_context].
  destruct (f s ctx) as [u s1]. cbn [fst snd].
  set (h := fun c g => map_shared (fun s (_ : unit) t => (f s t, tt)) s1 c g).
  assert (E : forall l, Forall (fun x => forall s, map_shared (fun s (_ : unit) t => (f s t, tt)) s x tt = (map_context f s x, tt)) l ->
    in_turn h l tt = (map (map_context f s1) l, tt)).
  { induction 1 as [|x l Hx Hl IHl]; cbn [in_turn map]; [reflexivity|]. unfold h at 1. rewrite Hx, IHl. reflexivity. }
  assert (EN : forall l : list (str * value T), map (fun kv => (fst kv, map_context f s1 (snd kv))) l = combine (map fst l) (map (map_context f s1) (map snd l))).
  { induction l as [|[k x] l IHl]; cbn [map combine fst snd]; [reflexivity|]. now rewrite IHl. }
  destruct d as [[l|l]|n [l|l]|b|p]; cbn [vdef_in_turn composite_in_turn vdef_map composite_map children values] in *; try reflexivity.
  - rewrite in_turn_named, (E _ IH). cbn [fst snd]. now rewrite EN.
  - now rewrite (E _ IH).
  - rewrite in_turn_named, (E _ IH). cbn [fst snd]. now rewrite EN.
  - now rewrite (E _ IH).
Qed.
