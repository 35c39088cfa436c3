(** * RichFacts: facts for C96. *)
From Verif Require Import Base Value Spec_Value Scale Serde SerdeFacts SerdeParts Spec_Serde Spec_Parts Spec_Foreign ForeignFacts DocRich Spec_RichDocs.

Section Ind.
  Context (P : rdoc -> Prop).
  Context (Hb : forall b, P (RBool b)) (Hi : forall sg w z, P (RInt sg w z)) (Hc : forall c, P (RChar c)) (Hs : forall s, P (RStr s))
    (Hl : forall l, Forall P l -> P (RSeq l)) (Hm : forall l, Forall (fun kd => P (snd kd)) l -> P (RMap l)) (Hf : P RFloat)
    (Hy : forall b, P (RBytes b)) (Hu : P RUnit) (Hn : P RNone) (Ho : forall d, P d -> P (RSome d))
    (He : forall n p, (forall d, p = Some d -> P d) -> P (REnum n p)) (Hw : forall d, P d -> P (RNewtype d)).
  Fixpoint rdoc_ind' (d : rdoc) : P d :=
    match d with
    | RBool b => Hb b | RInt sg w z => Hi sg w z | RChar c => Hc c | RStr s => Hs s
    | RSeq l => Hl l ((fix go (l : list rdoc) : Forall P l := match l with [] => Forall_nil _ | x :: r => Forall_cons _ (rdoc_ind' x) (go r) end) l)
    | RMap l => Hm l ((fix go (l : list (rdoc * rdoc)) : Forall (fun kd => P (snd kd)) l := match l with [] => Forall_nil _ | (k, x) :: r => Forall_cons (k, x) (rdoc_ind' x) (go r) end) l)
    | RFloat => Hf | RBytes b => Hy b | RUnit => Hu | RNone => Hn | RSome d => Ho d (rdoc_ind' d)
    | REnum n p => He n p (match p as p return (forall d, p = Some d -> P d) with Some x => fun d E => match E in _ = o return match o with Some y => P y | None => True end with eq_refl => rdoc_ind' x end | None => fun d E => match E in _ = o return match o with Some y => P y | None => True end with eq_refl => I end end)
    | RNewtype d => Hw d (rdoc_ind' d)
    end.
End Ind.

Lemma rtext_iff d s : rtext d = Ok s <-> spells d s.
Proof.
  split.
  - intro H. destruct d; cbn [rtext] in H; try discriminate H.
    + injection H as <-. constructor.
    + injection H as <-. constructor.
    + destruct (utf8_decode b) as [s'|] eqn:E; [|discriminate H]. injection H as <-. now constructor.
  - intro H. inversion H as [|c|b s' E]; subst; cbn [rtext]; [reflexivity|reflexivity|now rewrite E].
Qed.
Lemma spells_unique d s s' : spells d s -> spells d s' -> s = s'.
Proof. intros H H'. apply rtext_iff in H, H'. congruence. Qed.

Lemma rbools_iff d bs : rbools d = Ok bs <-> d = RSeq (map RBool bs).
Proof.
  split.
  - destruct d as [| | | |l| | | | | | | |]; cbn [rbools]; try discriminate. revert bs. induction l as [|x l IH]; intros bs H.
    + injection H as <-. reflexivity.
    + cbn [mapM] in H. apply bind_ok in H as (b & Hb & H). apply bind_ok in H as (bs' & H & E). injection E as <-.
      destruct x; cbn [rbool] in Hb; try discriminate Hb. injection Hb as ->. apply IH in H. injection H as ->. reflexivity.
  - intros ->. cbn [rbools]. induction bs as [|b bs IH]; [reflexivity|]. cbn [map mapM rbool bind]. rewrite IH. reflexivity.
Qed.

Section R.
  Context (strict : bool).
  Notation rvalue := (rvalue strict).
  Notation rfields := (rfields strict).
  Notation entry := (fun kx : rdoc * rdoc => match kx with (k, x) => bind (rtext k) (fun s => rmap (pair s) (rvalue x)) end).

  Lemma list_iff l : Forall (fun d => forall v, rvalue d = Ok v <-> stands strict d v) l -> forall vs, mapM rvalue l = Ok vs <-> Forall2 (stands strict) l vs.
  Proof.
    induction 1 as [|d l Hd _ IH]; intro vs; cbn [mapM].
    - split; [intro H; injection H as <-; constructor|intro H; now inversion H].
    - split.
      + intro H. apply bind_ok in H as (v & Hv & H). apply bind_ok in H as (vs' & H & E). injection E as <-. constructor; [now apply Hd|now apply IH].
      + intro H. inversion H as [|? v ? vs' Hv Hl]; subst. apply Hd in Hv. apply IH in Hl. rewrite Hv. cbn [bind]. rewrite Hl. reflexivity.
  Qed.

  Lemma entries_iff l : Forall (fun kd => forall v, rvalue (snd kd) = Ok v <-> stands strict (snd kd) v) l -> forall vs : list (str * value unit),
    mapM entry l = Ok vs <-> Forall2 (fun kd kv => spells (fst kd) (fst kv) /\ stands strict (snd kd) (snd kv)) l vs.
  Proof.
    induction 1 as [|[k d] l Hd _ IH]; intro vs; cbn [mapM].
    - split; [intro H; injection H as <-; constructor|intro H; now inversion H].
    - cbn [snd] in Hd. split.
      + intro H. apply bind_ok in H as (kv & Hv & H). apply bind_ok in H as (vs' & H & E). injection E as <-.
        apply bind_ok in Hv as (s & Hk & Hv). apply rmap_ok in Hv as (v & Hv & ->). constructor; [cbn [fst snd]; split; [now apply rtext_iff|now apply Hd]|now apply IH].
      + intro H. inversion H as [|? [s v] ? vs' [Hk Hv] Hl]; subst. cbn [fst snd] in Hk, Hv. apply rtext_iff in Hk. apply Hd in Hv. apply IH in Hl.
        rewrite Hk. cbn [bind]. rewrite Hv. cbn [rmap bind]. rewrite Hl. reflexivity.
  Qed.

  Lemma read_both d : (forall v, rvalue d = Ok v <-> stands strict d v) /\ (forall c, rfields d = Ok c <-> gives strict d c).
  Proof.
    induction d as [b|sg w z|c|s|l IH|l IH| |b| | |d IH|n p IH|d IH] using rdoc_ind'.
    - split; intro x; cbn [DocRich.rvalue DocRich.rfields]; (split; [intro H; try discriminate H; try (injection H as <-; constructor)|intro H; now inversion H]).
    - split; intro x; cbn [DocRich.rvalue DocRich.rfields]; (split; [intro H; try discriminate H; try (destruct sg; injection H as <-; constructor)|intro H; now inversion H]).
    - split; intro x; cbn [DocRich.rvalue DocRich.rfields]; (split; [intro H; try discriminate H; try (injection H as <-; constructor)|intro H; now inversion H]).
    - split; intro x; cbn [DocRich.rvalue DocRich.rfields]; (split; [intro H; try discriminate H; try (injection H as <-; constructor)|intro H; now inversion H]).
    - assert (HL := list_iff l (Forall_impl _ (fun d H => proj1 H) IH)). split; intro x; cbn [DocRich.rvalue DocRich.rfields]; rewrite rmap_ok.
      + split; [intros (vs & H & ->); apply HL in H; now constructor|intro H; inversion H as [| | | | | | | | | | |l' vs HF| |]; subst; apply HL in HF; now exists vs].
      + split; [intros (vs & H & ->); apply HL in H; now constructor|intro H; inversion H as [| |l' vs HF| |]; subst; apply HL in HF; now exists vs].
    - assert (HV : Forall (fun kd => forall v, rvalue (snd kd) = Ok v <-> stands strict (snd kd) v) l) by exact (Forall_impl _ (fun kd H => proj1 H) IH). clear IH.
      split; intro x.
      + destruct l as [|[k d] l].
        * cbn [DocRich.rvalue]. split.
          -- intro H. injection H as <-. constructor; [discriminate|constructor].
          -- intro H. inversion H as [| | | | | | | | | | | |l' vs HN HF|]; subst. inversion HF; subst. reflexivity.
        * inversion HV as [|? ? Hd Hl]; subst. cbn [snd] in Hd. cbn [DocRich.rvalue]. split.
          -- intro H. apply bind_ok in H as (s & Hk & H). apply rtext_iff in Hk. destruct (str_eqb s bitvec_key) eqn:E.
             ++ apply str_eqb_eq in E. subst s. apply bind_ok in H as (bs & Hb & H). apply rbools_iff in Hb. subst d.
                destruct (strict && negb (Nat.eqb (length l) 0)) eqn:EL; [discriminate H|]. injection H as <-. constructor; [exact Hk|].
                intro ES. rewrite ES in EL. cbn [andb] in EL. destruct l; [reflexivity|discriminate EL].
             ++ apply bind_ok in H as (v & Hv & H). apply rmap_ok in H as (vs & H & ->). apply Hd in Hv. apply (entries_iff l Hl) in H.
                constructor; [intros k' v' vs' E'; injection E' as <- _ _; intro Q; subst; rewrite str_eqb_refl in E; discriminate E|constructor; [now split|exact H]].
          -- intro H. inversion H as [| | | | | | | | | | | |l' vs HN HF|dk bs rest Hk HS]; subst.
             ++ inversion HF as [|? [s v] ? vs' [Hk Hv] HF']; subst. cbn [fst snd] in Hk, Hv. apply rtext_iff in Hk. rewrite Hk. cbn [bind].
                destruct (str_eqb s bitvec_key) eqn:E; [apply str_eqb_eq in E; exfalso; now apply (HN s v vs' eq_refl)|].
                apply Hd in Hv. rewrite Hv. cbn [bind]. apply (entries_iff l Hl) in HF'. rewrite HF'. reflexivity.
             ++ apply rtext_iff in Hk. rewrite Hk. cbn [bind]. change (str_eqb reserved_key bitvec_key) with true. cbv iota.
                rewrite (proj2 (rbools_iff _ bs) eq_refl). cbn [bind]. destruct strict; [rewrite HS by reflexivity|]; reflexivity.
      + cbn [DocRich.rfields]. rewrite rmap_ok. split.
        * intros (vs & H & ->). apply (entries_iff l HV) in H. now constructor.
        * intro H. inversion H as [| | |l' vs HF|]; subst. apply (entries_iff l HV) in HF. now exists vs.
    - split; intro x; cbn [DocRich.rvalue DocRich.rfields]; (split; [intro H; discriminate H|intro H; now inversion H]).
    - split; intro x; cbn [DocRich.rvalue DocRich.rfields]; (split; [intro H; injection H as <-; constructor|intro H; now inversion H]).
    - split; intro x; cbn [DocRich.rvalue DocRich.rfields]; (split; [intro H; injection H as <-; constructor|intro H; now inversion H]).
    - split; intro x; cbn [DocRich.rvalue DocRich.rfields]; (split; [intro H; try discriminate H; try (injection H as <-; constructor)|intro H; now inversion H]).
    - split; intro x; cbn [DocRich.rvalue DocRich.rfields].
      + rewrite rmap_ok. split; [intros (v & H & ->); constructor; now apply IH|intro H; inversion H; subst; exists v; split; [now apply IH|reflexivity]].
      + split; [intro H; discriminate H|intro H; now inversion H].
    - split; intro x; cbn [DocRich.rvalue DocRich.rfields].
      + split.
        * intro H. apply bind_ok in H as (s & Hk & H). apply rtext_iff in Hk. destruct p as [d|]; [|discriminate H]. apply rmap_ok in H as (c & H & ->).
          constructor; [exact Hk|now apply (IH d eq_refl)].
        * intro H. inversion H as [| | | | | | | |dn s d c Hk Hc| | | | |]; subst. apply rtext_iff in Hk. rewrite Hk. cbn [bind]. apply (IH d eq_refl) in Hc.
          change (rmap (fun c0 => Val (DVariant s c0) tt) (rfields d) = Ok (Val (DVariant s c) tt)). rewrite Hc. reflexivity.
      + split; [intro H; discriminate H|intro H; now inversion H].
    - split; intro x; cbn [DocRich.rvalue DocRich.rfields].
      + split; [intro H; constructor; now apply IH|intro H; inversion H; subst; now apply IH].
      + split; [intro H; constructor; now apply IH|intro H; inversion H; subst; now apply IH].
  Qed.

  (** ** Variants *)
  Definition rslot {A} (k : str) (f : rdoc -> result A derr) (l : list (rdoc * rdoc)) (o o' : option A) : Prop :=
    (exists d x, last_entry k l d /\ f d = Ok x /\ o' = Some x) \/ (Forall (fun kd => ~ spells (fst kd) k) l /\ o' = o).
  Definition rgood (kd : rdoc * rdoc) : Prop :=
    (spells (fst kd) (s2l "name") /\ exists s, spells (snd kd) s) \/ (spells (fst kd) (s2l "values") /\ exists c, gives strict (snd kd) c).

  Lemma last_entry_cons k dk d l x : last_entry k ((dk, d) :: l) x <-> last_entry k l x \/ (spells dk k /\ x = d /\ Forall (fun kd => ~ spells (fst kd) k) l).
  Proof.
    unfold last_entry. split.
    - intros (b & dk' & a & E & H). destruct b as [|y b].
      + injection E as <- <- ->. right. now destruct H.
      + injection E as _ ->. left. now exists b, dk', a.
    - intros [(b & dk' & a & -> & H)|(HS & -> & HF)].
      + now exists ((dk, d) :: b), dk', a.
      + now exists [], dk, l.
  Qed.

  Lemma rslot_skip {A} k (f : rdoc -> result A derr) l dk d o o' : ~ spells dk k -> (rslot k f ((dk, d) :: l) o o' <-> rslot k f l o o').
  Proof.
    intro N. unfold rslot. split.
    - intros [(y & x & L & H)|[I E]].
      + left. exists y, x. split; [|exact H]. apply last_entry_cons in L as [L|(Q & _)]; [exact L|now destruct N].
      + right. inversion I; subst. now split.
    - intros [(y & x & L & H)|[I E]].
      + left. exists y, x. split; [|exact H]. apply last_entry_cons. now left.
      + right. split; [now constructor|exact E].
  Qed.
  Lemma rslot_hit {A} k (f : rdoc -> result A derr) l dk d x0 o o' : spells dk k -> f d = Ok x0 -> (rslot k f ((dk, d) :: l) o o' <-> rslot k f l (Some x0) o').
  Proof.
    intros HS H0. unfold rslot. split.
    - intros [(y & x & L & H)|[I E]].
      + apply last_entry_cons in L as [L|(_ & -> & N)].
        * left. now exists y, x.
        * right. split; [exact N|]. destruct H as [H ->]. congruence.
      + inversion I; subst. cbn [fst] in *. contradiction.
    - intros [(y & x & L & H)|[I ->]].
      + left. exists y, x. split; [|exact H]. apply last_entry_cons. now left.
      + left. exists d, x0. repeat split; [|exact H0]. apply last_entry_cons. now right.
  Qed.

  Lemma rvariant_fields_iff l : forall n0 c0 n1 c1, rvariant_fields strict l n0 c0 = Ok (n1, c1) <->
    Forall rgood l /\ rslot (s2l "name") rtext l n0 n1 /\ rslot (s2l "values") rfields l c0 c1.
  Proof.
    induction l as [|[k d] l IH]; intros n0 c0 n1 c1; cbn [rvariant_fields].
    - split.
      + intro H. injection H as <- <-. split; [constructor|]. split; right; split; (constructor || reflexivity).
      + intros (_ & [(y & x & (b & dk & a & E & _) & _)|[_ ->]] & [(y' & x' & (b' & dk' & a' & E' & _) & _)|[_ ->]]);
          try (destruct b; discriminate E); try (destruct b'; discriminate E'). reflexivity.
    - assert (NV : s2l "name" <> s2l "values") by discriminate.
      split.
      + intro H. apply bind_ok in H as (s & Hk & H). apply rtext_iff in Hk. destruct (str_eqb s (s2l "name")) eqn:E1; [|destruct (str_eqb s (s2l "values")) eqn:E2; [|discriminate H]].
        * apply str_eqb_eq in E1. subst s. apply bind_ok in H as (n & Hn & H). apply IH in H as (F & H1 & H2).
          assert (NK : ~ spells k (s2l "values")) by (intro Q; apply NV; exact (spells_unique k _ _ Hk Q)).
          split; [constructor; [left; split; [exact Hk|exists n; now apply rtext_iff]|exact F]|]. split; [now apply (rslot_hit _ _ _ _ _ n)|now apply rslot_skip].
        * apply str_eqb_eq in E2. subst s. apply bind_ok in H as (c & Hc & H). apply IH in H as (F & H1 & H2).
          assert (NK : ~ spells k (s2l "name")) by (intro Q; apply NV; exact (spells_unique k _ _ Q Hk)).
          split; [constructor; [right; split; [exact Hk|exists c; now apply read_both]|exact F]|]. split; [now apply rslot_skip|now apply (rslot_hit _ _ _ _ _ c)].
      + intros (F & H1 & H2). inversion F as [|? ? HG F']; subst. destruct HG as [[Hk [n Hn]]|[Hk [c Hc]]]; cbn [fst snd] in *.
        * rewrite (proj2 (rtext_iff k _) Hk). cbn [bind]. change (str_eqb (s2l "name") (s2l "name")) with true. cbv iota. apply rtext_iff in Hn. rewrite Hn. cbn [bind].
          apply IH. split; [exact F'|]. split; [now apply (rslot_hit _ _ _ _ _ n) in H1|]. apply rslot_skip in H2; [exact H2|]. intro Q. apply NV. exact (spells_unique k _ _ Hk Q).
        * rewrite (proj2 (rtext_iff k _) Hk). cbn [bind]. change (str_eqb (s2l "values") (s2l "name")) with false. change (str_eqb (s2l "values") (s2l "values")) with true. cbv iota.
          apply read_both in Hc. rewrite Hc. cbn [bind]. apply IH. split; [exact F'|]. split; [|now apply (rslot_hit _ _ _ _ _ c) in H2].
          apply rslot_skip in H1; [exact H1|]. intro Q. apply NV. exact (spells_unique k _ _ Q Hk).
  Qed.

  Lemma rvariant_iff d n c : rvariant strict d = Ok (n, c) <-> stands_variant strict d n c.
  Proof.
    split.
    - intro H. destruct d; cbn [rvariant] in H; try discriminate H.
      + apply bind_ok in H as ([[n'|] [c'|]] & H & E); try discriminate E. injection E as -> ->. apply rvariant_fields_iff in H as (F & H1 & H2).
        destruct H1 as [(dn & n1 & L1 & T1 & E1)|[_ E1]]; [|discriminate E1]. destruct H2 as [(dc & c1 & L2 & T2 & E2)|[_ E2]]; [|discriminate E2].
        injection E1 as <-. injection E2 as <-. apply rtext_iff in T1. apply read_both in T2. now apply (SV_map strict l n c dn dc).
      + injection H as <- <-. constructor.
      + apply rmap_ok in H as (v & H & E). injection E as -> ->. constructor. now apply read_both.
      + apply bind_ok in H as (s & Hk & H). apply rtext_iff in Hk. destruct p as [x|]; [|discriminate H]. apply rmap_ok in H as (c' & H & E). injection E as -> ->.
        constructor; [exact Hk|now apply read_both].
    - intro H. inversion H as [|x v HV|dn n' x c' Hk Hc|l n' c' dn dc F L1 T1 L2 T2]; subst; cbn [rvariant].
      + reflexivity.
      + apply read_both in HV. rewrite HV. reflexivity.
      + apply rtext_iff in Hk. rewrite Hk. cbn [bind]. apply read_both in Hc. rewrite Hc. reflexivity.
      + assert (E : rvariant_fields strict l None None = Ok (Some n, Some c)).
        { apply rvariant_fields_iff. split; [exact F|]. split; left; [exists dn, n|exists dc, c]; (split; [assumption|split; [|reflexivity]]); [now apply rtext_iff|now apply read_both]. }
        rewrite E. reflexivity.
  Qed.
End R.

(** ** Primitives *)
Lemma ru8_iff d x : ru8 d = Ok x <-> exists sg w, w <> 128%N /\ (x < 256)%N /\ d = RInt sg w (Z.of_N x).
Proof.
  split.
  - destruct d as [|sg w z| | | | | | | | | | |]; cbn [ru8]; try discriminate. destruct (w =? 128)%N eqn:E; [discriminate|]. destruct (in_int false 8 z) eqn:EI; [|discriminate].
    intro H. injection H as <-. apply N.eqb_neq in E. unfold in_int in EI. change (2 ^ Z.of_N 8)%Z with 256%Z in EI. apply andb_prop in EI as [E1 E2].
    apply Z.leb_le in E1. apply Z.ltb_lt in E2. exists sg, w. split; [exact E|]. split; [lia|]. now rewrite Z2N.id.
  - intros (sg & w & NW & HX & ->). cbn [ru8]. apply N.eqb_neq in NW. rewrite NW. unfold in_int. change (2 ^ Z.of_N 8)%Z with 256%Z.
    rewrite (proj2 (Z.leb_le _ _)) by lia. rewrite (proj2 (Z.ltb_lt _ _)) by lia. cbn [andb]. now rewrite N2Z.id.
Qed.

Lemma ru8s_iff l : forall b, mapM ru8 l = Ok b <-> Forall2 (fun d x => exists sg w, w <> 128%N /\ (x < 256)%N /\ d = RInt sg w (Z.of_N x)) l b.
Proof.
  induction l as [|d l IH]; intro b; cbn [mapM].
  - split; [intro H; injection H as <-; constructor|intro H; now inversion H].
  - split.
    + intro H. apply bind_ok in H as (x & Hx & H). apply bind_ok in H as (b' & H & E). injection E as <-. constructor; [now apply ru8_iff|now apply IH].
    + intro H. inversion H as [|? x ? b' Hx Hl]; subst. apply ru8_iff in Hx. apply IH in Hl. rewrite Hx. cbn [bind]. rewrite Hl. reflexivity.
Qed.

Lemma rprim_iff d p : rprim d = Ok p <-> stands_prim d p.
Proof.
  split.
  - intro H. destruct d as [b|sg w z|c|s|l|l| |b| | |d|n q|d]; cbn [rprim] in H; try discriminate H; try (injection H as <-; constructor).
    + destruct sg; injection H as <-; constructor.
    + apply bind_ok in H as (b & Hb & H). destruct (Nat.eqb (length b) 32) eqn:E; [|discriminate H]. injection H as <-. apply Nat.eqb_eq in E. constructor; [exact E|now apply ru8s_iff].
    + destruct (Nat.eqb (length b) 32) eqn:E; [|discriminate H]. injection H as <-. apply Nat.eqb_eq in E. now constructor.
  - intro H. inversion H as [| | | | |b HL|l b HL HF]; subst; cbn [rprim]; try reflexivity.
    + rewrite HL. reflexivity.
    + apply ru8s_iff in HF. rewrite HF. cbn [bind]. rewrite HL. reflexivity.
Qed.

(** ** The documents of Serde.v *)
Section Embed.
  Context {T : Type} (strict : bool).
  Notation dv d := (de_value (SrcDoc (T := T) d)).
  Notation dc d := (de_composite (SrcDoc (T := T) d)).

  Lemma embed_bools x : rbools (embed x) = bind (deserialize (SrcDoc (T := T) x) HSeq) (visit_vec de_bool).
  Proof.
    cbn [deserialize bind]. destruct x as [| | | |l| | | | | | |n [d|]]; try reflexivity. cbn [embed rbools doc_de visit_vec].
    symmetry. rewrite !mapM_map. induction l as [|x l IH]; [reflexivity|]. cbn [mapM]. unfold de_bool at 1. cbn [deserialize bind].
    destruct x as [| | | | | | | | | | |n [d|]]; try reflexivity. cbn [embed rbool doc_de visit_bool bind]. rewrite IH. reflexivity.
  Qed.

  Lemma embed_both d : (strict = true -> no_leftovers d) -> rvalue strict (embed d) = dv d /\
    ((forall l, d = FMap l -> strict = true -> forall x, In x l -> no_leftovers (snd x)) -> rfields strict (embed d) = dc d).
  Proof.
    remember (doc_size d) as n eqn:En. revert d En. induction n as [n IHn] using lt_wf_ind. intros d -> NL.
    assert (HS : forall l x, d = FSeq l -> In x l -> rvalue strict (embed x) = dv x).
    { intros l x -> HI. apply (proj1 (IHn (doc_size x) (doc_size_seq l x HI) x eq_refl (fun E => leftovers_sub x _ (P_seq x x l HI (P_self x)) (NL E)))). }
    rewrite dc_eq, dv_prim_cases. split.
    - destruct d as [b|sg w z|ch|s|l|l| |b| | |d|n [d|]]; try reflexivity.
      + destruct sg; reflexivity.
      + cbn [embed rvalue doc_de visit_valuedef visit_composite]. rewrite !mapM_map. rewrite (mapM_ext _ (fun x => dv x) l) by (intros x HI; now apply (HS l)).
        match goal with |- rmap _ ?r = _ => destruct r; reflexivity end.
      + assert (HM : forall k x, In (k, x) l -> rvalue strict (embed x) = dv x).
        { intros k x HI. apply (proj1 (IHn (doc_size x) (doc_size_map l k x HI) x eq_refl (fun E => leftovers_sub x _ (P_map x k x l HI (P_self x)) (NL E)))). }
        destruct l as [|[k x] l]; [reflexivity|]. cbn [embed map rvalue rtext bind doc_de fst snd visit_valuedef visit_map_or_bits]. destruct (str_eqb k bitvec_key) eqn:EK.
        * rewrite (embed_bools x). assert (EL : strict && negb (Nat.eqb (length (map (fun kd : str * doc => let (k0, x0) := kd in (RStr k0, embed x0)) l)) 0) = false).
          { destruct strict; [|reflexivity]. destruct l as [|y l]; [reflexivity|]. exfalso. apply str_eqb_eq in EK. subst k. apply (NL eq_refl x y l). constructor. }
          rewrite EL. destruct (bind (deserialize (SrcDoc x) HSeq) (visit_vec de_bool)); reflexivity.
        * rewrite (HM k x (or_introl eq_refl)). destruct (dv x) as [v|e]; [|reflexivity]. cbn [bind].
          rewrite !mapM_map. cbn [fst snd].
          rewrite (mapM_ext _ (fun kv : str * doc => rmap (pair (fst kv)) (dv (snd kv))) l).
          { match goal with |- rmap _ ?r = _ => destruct r; reflexivity end. }
          intros [k' x'] HI. cbn [fst snd rtext bind]. now rewrite (HM k' x' (or_intror HI)).
      + cbn [embed rvalue doc_de visit_valuedef visit_variant]. rewrite (proj1 (IHn (doc_size d) (Nat.lt_succ_diag_r _) d eq_refl (fun E => leftovers_sub d _ (P_some d d (P_self d)) (NL E)))).
        destruct (dv d); reflexivity.
      + cbn [embed rvalue rtext bind doc_de option_map visit_valuedef visit_variant].
        assert (HLt : (doc_size d < doc_size (FEnum n (Some d)))%nat) by (cbn [doc_size]; lia).
        assert (NLd : strict = true -> no_leftovers d) by (intro E; exact (leftovers_sub d _ (P_enum d n d (P_self d)) (NL E))).
        assert (EF : rfields strict (embed d) = dc d).
        { apply (IHn _ HLt d eq_refl NLd). intros l -> E [k x] HI. cbn [snd]. exact (leftovers_sub x _ (P_map x k x l HI (P_self x)) (NLd E)). }
        change (rmap (fun c => Val (DVariant n c) tt) (rfields strict (embed d)) =
          rmap (fun x => Val x tt) (rmap (fun nc => DVariant (fst nc) (snd nc)) (rmap (pair n) (dc d)))). rewrite EF. destruct (dc d); reflexivity.
    - intro NF. destruct d as [b|sg w z|ch|s|l|l| |b| | |d|n [d|]]; try reflexivity.
      + cbn [embed rfields doc_de visit_composite]. rewrite !mapM_map. now rewrite (mapM_ext _ (fun x => dv x) l) by (intros x HI; now apply (HS l)).
      + cbn [embed rfields doc_de visit_composite]. rewrite !mapM_map. cbn [fst snd].
        rewrite (mapM_ext _ (fun kv : str * doc => rmap (pair (fst kv)) (dv (snd kv))) l).
        { reflexivity. }
        intros [k' x'] HI. cbn [fst snd rtext bind]. f_equal.
        apply (proj1 (IHn (doc_size x') (doc_size_map l k' x' HI) x' eq_refl (fun E => NF l eq_refl E (k', x') HI))).
  Qed.

  Lemma embed_text x : rtext (embed x) = de_string (SrcDoc (T := T) x).
  Proof. unfold de_string. cbn [deserialize bind]. destruct x as [| | | | | | | | | | |n [d|]]; reflexivity. Qed.

  Lemma embed_variant_fields l : (strict = true -> forall k x, In (k, x) l -> no_leftovers x) -> forall n0 c0,
    rvariant_fields strict (map (fun kd : str * doc => let (k, x) := kd in (RStr k, embed x)) l) n0 c0 =
    variant_fields de_value (map (fun kv => (fst kv, SrcDoc (T := T) (snd kv))) l) n0 c0.
  Proof.
    induction l as [|[k x] l IH]; intros NL n0 c0; [reflexivity|]. cbn [map rvariant_fields variant_fields rtext bind fst snd].
    assert (IH' := IH (fun E k' x' HI => NL E k' x' (or_intror HI))). clear IH. destruct (str_eqb k (s2l "name")); [|destruct (str_eqb k (s2l "values")); [|reflexivity]].
    - rewrite embed_text. destruct (de_string (SrcDoc x)) as [n|e]; [|reflexivity]. cbn [bind]. apply IH'.
    - assert (NX : strict = true -> no_leftovers x) by (intro E; exact (NL E k x (or_introl eq_refl))).
      assert (EF : rfields strict (embed x) = dc x).
      { apply (embed_both x NX). intros l' -> E [k' x'] HI. cbn [snd]. exact (leftovers_sub x' _ (P_map x' k' x' l' HI (P_self x')) (NX E)). }
      rewrite EF. change (de_composite_with de_value (SrcDoc (T := T) x)) with (dc x). destruct (dc x) as [c|e]; [|reflexivity]. cbn [bind]. apply IH'.
  Qed.

  Lemma embed_variant d : (strict = true -> no_leftovers d) -> rvariant strict (embed d) = de_variant (SrcDoc (T := T) d).
  Proof.
    intro NL. unfold de_variant. cbn [deserialize bind]. destruct d as [b|sg w z|ch|s|l|l| |b| | |d|n [d|]]; try reflexivity; cbn [embed rvariant doc_de option_map visit_variant rtext bind].
    - rewrite embed_variant_fields; [reflexivity|]. intros E k x HI. exact (leftovers_sub x _ (P_map x k x l HI (P_self x)) (NL E)).
    - rewrite (proj1 (embed_both d (fun E => leftovers_sub d _ (P_some d d (P_self d)) (NL E)))). reflexivity.
    - assert (NX : strict = true -> no_leftovers d) by (intro E; exact (leftovers_sub d _ (P_enum d n d (P_self d)) (NL E))).
      assert (EF : rfields strict (embed d) = dc d).
      { apply (embed_both d NX). intros l' -> E [k' x'] HI. cbn [snd]. exact (leftovers_sub x' _ (P_map x' k' x' l' HI (P_self x')) (NX E)). }
      rewrite EF. reflexivity.
  Qed.

  Lemma embed_u8s l : mapM ru8 (map embed l) = rmap (map Z.to_N) (mapM (de_u8 (T := T)) (map SrcDoc l)).
  Proof.
    rewrite !mapM_map. induction l as [|x l IH]; [reflexivity|]. cbn [mapM]. rewrite IH. unfold de_u8 at 2. cbn [deserialize bind].
    destruct x as [|sg w z| | | | | | | | | |n [d|]]; try reflexivity. cbn [embed ru8 doc_de visit_int]. change (8 =? 128)%N with false. cbn [negb andb]. rewrite andb_true_r.
    destruct (w =? 128)%N; [reflexivity|]. destruct (in_int false 8 z); [|reflexivity]. cbn [bind]. destruct (mapM (fun x => de_u8 (SrcDoc x)) l); reflexivity.
  Qed.

  Lemma embed_prim d : rprim (embed d) = de_prim (SrcDoc (T := T) d).
  Proof.
    unfold de_prim. cbn [deserialize bind]. destruct d as [b|sg w z|ch|s|l|l| |b| | |d|n [d|]]; try reflexivity.
    cbn [embed rprim doc_de visit_prim]. rewrite embed_u8s. destruct (mapM de_u8 (map SrcDoc l)) as [b|e]; [|reflexivity]. cbn [rmap bind]. now rewrite map_length.
  Qed.
End Embed.
