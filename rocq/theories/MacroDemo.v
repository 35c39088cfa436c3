(** * MacroDemo: a small expression parser that meets [rustc_like] (to show the hypotheses of Props_Macro can be met), and
    facts about the [From] conversions. *)
From Verif Require Import Base Value ValueFacts Macro Spec_Macro.
From Coq Require Import Lia ZArith.

(** Expressions over [+] and [-] (also as a prefix), calls, indexing, identifiers, literals and groups.  Their meaning is the
    list of tokens they are made of. *)
Definition t_minus : tok := TOther 0.
Definition t_plus : tok := TOther 1.
Definition lit (n : N) : tok := TOther (n + 2).

Definition starts_operand (t : tok) : bool :=
  match t with TComma | TColon => false | TOther n => negb (n =? 1)%N | _ => true end.

Fixpoint dgo (want : bool) (ts : list tok) : option (list tok * list tok) :=
  match ts with
  | [] => if want then None else Some ([], [])
  | t :: r =>
      let cons b := match dgo b r with Some (e, r') => Some (t :: e, r') | None => None end in
      if want then
        match t with
        | TOther n => if (n =? 0)%N then cons true else if (n =? 1)%N then None else cons false
        | TComma | TColon => None
        | _ => cons false
        end
      else
        match t with
        | TOther n => if (n =? 0)%N then cons true else if (n =? 1)%N then cons true else Some ([], t :: r)
        | TGroup Paren _ | TGroup Bracket _ => cons false
        | _ => Some ([], t :: r)
        end
  end.

Definition dP (ts : list tok) : eparse (list tok) :=
  match ts with
  | [] => PNone
  | t :: _ => if starts_operand t then match dgo true ts with Some (e, r) => POk e r | None => PFatal end else PNone
  end.

(** Literals are their number, anything else is the number of its tokens; a key prints as its first token. *)
Definition dfrom (e : list tok) : value unit :=
  match e with [TOther n] => vu128 (n - 2) | _ => vu128 (N.of_nat (length e)) end.
Definition dkey (e : list tok) : str := match e with TIdent s :: _ => s | TOther n :: _ => [n] | _ => [] end.

Ltac dstep H :=
  match type of H with
  | context [match dgo ?b ?ts with _ => _ end] =>
      destruct (dgo b ts) as [[? ?]|] eqn:?; [|discriminate H]
  end.

Lemma dgo_split b ts e r : dgo b ts = Some (e, r) -> ts = e ++ r /\ dgo b e = Some (e, []) /\ (b = true -> e <> []).
Proof.
  revert b e r. induction ts as [|t ts IH]; intros b e r H.
  - destruct b; [discriminate|]. injection H as <- <-. repeat split; discriminate.
  - assert (HC : forall b', match dgo b' ts with Some (e', r') => Some (t :: e', r') | None => None end = Some (e, r) ->
      exists e', e = t :: e' /\ ts = e' ++ r /\ dgo b' e' = Some (e', [])).
    { intros b' Hc. destruct (dgo b' ts) as [[e' r']|] eqn:Ed; [|discriminate]. injection Hc as <- <-.
      exists e'. destruct (IH _ _ _ Ed) as (-> & Hd & _). auto. }
    cbn [dgo] in H. destruct b.
    + destruct t as [n| | |n|d l]; try discriminate.
      * destruct (HC _ H) as (e' & -> & -> & Hd). cbn [dgo]. rewrite Hd. repeat split; discriminate.
      * destruct (n =? 0)%N eqn:E0; [|destruct (n =? 1)%N eqn:E1; [discriminate|]];
          destruct (HC _ H) as (e' & -> & -> & Hd); cbn [dgo]; rewrite E0, ?E1, Hd; repeat split; discriminate.
      * destruct (HC _ H) as (e' & -> & -> & Hd). cbn [dgo]. rewrite Hd. repeat split; discriminate.
    + destruct t as [n| | |n|d l]; try (injection H as <- <-; repeat split; discriminate).
      * destruct (n =? 0)%N eqn:E0; [|destruct (n =? 1)%N eqn:E1; [|injection H as <- <-; repeat split; discriminate]];
          destruct (HC _ H) as (e' & -> & -> & Hd); cbn [dgo]; rewrite E0, ?E1, Hd; repeat split; discriminate.
      * destruct d; try (injection H as <- <-; repeat split; discriminate);
          destruct (HC _ H) as (e' & -> & -> & Hd); cbn [dgo]; rewrite Hd; repeat split; discriminate.
Qed.

Lemma dgo_app b ts e r m : dgo b ts = Some (e, r) -> r <> [] \/ (exists t m', m = t :: m' /\ (t = TComma \/ t = TColon)) ->
  dgo b (ts ++ m) = Some (e, r ++ m).
Proof.
  intros H Hm. revert b e r H Hm. induction ts as [|t ts IH]; intros b e r H Hm.
  - destruct b; [discriminate|]. injection H as <- <-. destruct Hm as [Hm|(t & m' & -> & Ht)]; [congruence|].
    destruct Ht as [-> | ->]; reflexivity.
  - assert (HC : forall b', match dgo b' ts with Some (e', r') => Some (t :: e', r') | None => None end = Some (e, r) ->
      match dgo b' (ts ++ m) with Some (e', r') => Some (t :: e', r') | None => None end = Some (e, r ++ m)).
    { intros b' Hc. destruct (dgo b' ts) as [[e' r']|] eqn:Ed; [|discriminate]. injection Hc as <- <-.
      rewrite (IH _ _ _ Ed Hm). reflexivity. }
    cbn [dgo app] in *. destruct b.
    + destruct t as [n| | |n|d l]; try discriminate; try (apply HC, H).
      destruct (n =? 0)%N; [apply HC, H|destruct (n =? 1)%N; [discriminate|apply HC, H]].
    + destruct t as [n| | |n|d l]; try (injection H as <- <-; reflexivity).
      * destruct (n =? 0)%N; [apply HC, H|destruct (n =? 1)%N; [apply HC, H|injection H as <- <-; reflexivity]].
      * destruct d; try (injection H as <- <-; reflexivity); apply HC, H.
Qed.

Lemma dP_ok ts e r : dP ts = POk e r -> dgo true ts = Some (e, r) /\ exists t ts', ts = t :: ts' /\ starts_operand t = true.
Proof.
  unfold dP. destruct ts as [|t ts]; [discriminate|]. destruct (starts_operand t) eqn:Es; [|discriminate].
  destruct (dgo true (t :: ts)) as [[e' r']|]; [|discriminate]. intros [= <- <-]. split; [reflexivity|]. eauto.
Qed.

Lemma dP_of ts t ts' e r : ts = t :: ts' -> starts_operand t = true -> dgo true ts = Some (e, r) -> dP ts = POk e r.
Proof. intros -> Hs H. unfold dP. rewrite Hs, H. reflexivity. Qed.

Lemma demo_parser_rustc_like : rustc_like dP.
Proof.
  constructor.
  - intros ts e r H. apply dP_ok in H as (H & t & ts' & -> & Hs).
    destruct (dgo_split _ _ _ _ H) as (Hts & Hd & Hn). specialize (Hn eq_refl).
    exists e. split; [exact Hn|]. split; [exact Hts|].
    destruct e as [|a e]; [congruence|]. injection Hts as <- _. apply (dP_of _ _ _ _ _ eq_refl Hs Hd).
  - intros ts e t rest H Ht. apply dP_ok in H as (H & t0 & ts' & -> & Hs).
    apply (dP_of ((t0 :: ts') ++ t :: rest) t0 (ts' ++ t :: rest) e (t :: rest) eq_refl Hs).
    apply (dgo_app _ _ _ [] (t :: rest) H). right. eauto.
  - intros t rest [-> | ->]; reflexivity.
  - intros ts e t rest more H. apply dP_ok in H as (H & t0 & ts' & -> & Hs).
    apply (dP_of ((t0 :: ts') ++ more) t0 (ts' ++ more) e (t :: rest ++ more) eq_refl Hs).
    apply (dgo_app _ _ _ (t :: rest) more H). left. discriminate.
  - intros ts more Hn H. destruct ts as [|t ts]; [congruence|]. unfold dP in *. cbn [app].
    destruct (starts_operand t); [|reflexivity]. destruct (dgo true (t :: ts)) as [[? ?]|]; discriminate.
Qed.

(** ** The conversions *)
Lemma value_from_uint w n : (0 < w <= 128)%N -> (n < 2 ^ w)%N -> value_from (RUint w n) = vu128 n.
Proof.
  intros Hw Hn. cbn [value_from]. rewrite from_uint_exact.
  - rewrite N2Z.id. reflexivity.
  - split; [lia|]. apply Z.lt_le_trans with (2 ^ Z.of_N w)%Z.
    + change 2%Z with (Z.of_N 2). rewrite <- N2Z.inj_pow. lia.
    + apply Z.pow_le_mono_r; lia.
Qed.

Lemma value_from_int w z : (0 < w <= 128)%N -> (- 2 ^ (Z.of_N w - 1) <= z < 2 ^ (Z.of_N w - 1))%Z -> value_from (RInt w z) = vi128 z.
Proof.
  intros Hw Hz. cbn [value_from]. rewrite from_int_exact; [reflexivity|].
  assert (H : (2 ^ (Z.of_N w - 1) <= 2 ^ 127)%Z) by (apply Z.pow_le_mono_r; lia). lia.
Qed.

Section RustInd.
  Context (Q : rust -> Prop)
    (Hbool : forall b, Q (RBool b)) (Hchar : forall c, Q (RChar c)) (Hstr : forall s, Q (RString s))
    (Hu : forall w n, Q (RUint w n)) (Hi : forall w z, Q (RInt w z)) (Hb : forall b, Q (RBits b))
    (Hv : forall l, Forall Q l -> Q (RVec l)) (Hp : forall l, Forall (fun kv => Q (snd kv)) l -> Q (RPairs l))
    (Hc : forall c, Q (RComposite c)) (Hvar : forall n c, Q (RVariant n c)) (Hval : forall v, Q (RValue v)).
  Fixpoint rust_ind' (r : rust) : Q r :=
    match r with
    | RBool b => Hbool b
    | RChar c => Hchar c
    | RString s => Hstr s
    | RUint w n => Hu w n
    | RInt w z => Hi w z
    | RBits b => Hb b
    | RVec l => Hv l ((fix go l : Forall Q l := match l with [] => Forall_nil _ | x :: l' => Forall_cons x (rust_ind' x) (go l') end) l)
    | RPairs l => Hp l ((fix go l : Forall (fun kv => Q (snd kv)) l :=
        match l with [] => Forall_nil _ | x :: l' => Forall_cons x (rust_ind' (snd x)) (go l') end) l)
    | RComposite c => Hc c
    | RVariant n c => Hvar n c
    | RValue v => Hval v
    end.
End RustInd.

Lemma value_from_injective t a b : of_type a t -> of_type b t -> value_from a = value_from b -> a = b.
Proof.
  revert t b. induction a as [x|x|x|w n|w z|x|l IH|l IH|c|n c|v] using rust_ind'; intros t b Ha Hb H;
    destruct t; try contradiction Ha; destruct b as [y|y|y|w' n'|w' z'|y|l'|l'|c'|n' c'|v']; try contradiction Hb;
    try (cbn [value_from] in H; congruence).
  - destruct Ha as (-> & Hw & Hn). destruct Hb as (-> & _ & Hn'). rewrite !value_from_uint in H by assumption. injection H as ->. reflexivity.
  - destruct Ha as (-> & Hw & Hn). destruct Hb as (-> & _ & Hn'). rewrite !value_from_int in H by assumption. injection H as ->. reflexivity.
  - f_equal. cbn [value_from] in H. injection H as H. cbn [of_type] in Ha, Hb.
    revert l' Hb H. induction IH as [|x l Hx _ IHl]; intros [|y l'] Hb H; try discriminate; [reflexivity|].
    cbn [map fold_right] in *. destruct Ha as [Ha Ha']. destruct Hb as [Hb Hb']. injection H as H H'.
    rewrite (Hx t y Ha Hb H), (IHl Ha' l' Hb' H'). reflexivity.
  - f_equal. cbn [value_from] in H. injection H as H. cbn [of_type] in Ha, Hb.
    revert l' Hb H. induction IH as [|[k x] l Hx _ IHl]; intros [|[k' y] l'] Hb H; try discriminate; [reflexivity|].
    cbn [map fold_right snd] in *. destruct Ha as [Ha Ha']. destruct Hb as [Hb Hb']. injection H as -> H H'.
    rewrite (Hx t y Ha Hb H), (IHl Ha' l' Hb' H'). reflexivity.
Qed.
