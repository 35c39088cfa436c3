(** * Base: results, strings, small list facts used everywhere. *)
From Coq Require Export String Ascii.
From Coq Require Export List Arith ZArith NArith Lia Bool.
From Coq Require Export ZifyBool ZifyNat ZifyN.
Export ListNotations.
#[global] Open Scope list_scope.
#[global] Open Scope bool_scope.

Ltac Zify.zify_post_hook ::= Z.div_mod_to_equations.

(** ** Results.  Rust [Result<A, E>]. *)
Inductive result (A E : Type) : Type :=
| Ok (a : A)
| Err (e : E).
Arguments Ok {A E} a.
Arguments Err {A E} e.

Definition is_ok {A E} (r : result A E) : bool := match r with Ok _ => true | Err _ => false end.

Definition bind {A B E} (r : result A E) (f : A -> result B E) : result B E :=
  match r with Ok a => f a | Err e => Err e end.

Definition rmap {A B E} (f : A -> B) (r : result A E) : result B E :=
  match r with Ok a => Ok (f a) | Err e => Err e end.

Definition obind {A B} (o : option A) (f : A -> option B) : option B :=
  match o with Some a => f a | None => None end.

(** ** Characters, strings, bytes.
    A Rust [char] is its code point (an [N]); a [str] is the list of its chars; a byte is an [N]. *)
Notation char := N (only parsing).
Notation str := (list N) (only parsing).
Notation byte := N (only parsing).
Notation bytes := (list N) (only parsing).

(** A Rust [char] is a Unicode scalar value. *)
Definition is_scalar (c : char) : bool :=
  ((c <? 0xD800) || ((0xE000 <=? c) && (c <? 0x110000)))%N.

(** Number of bytes a char occupies in UTF-8 (std [char::len_utf8]). *)
Definition utf8_len (c : char) : N :=
  (if c <? 0x80 then 1 else if c <? 0x800 then 2 else if c <? 0x10000 then 3 else 4)%N.

(** Length in bytes of a Rust [str] (std [str::len]). *)
Fixpoint blen (s : str) : N :=
  match s with [] => 0 | c :: s' => (utf8_len c + blen s')%N end.

Definition ch (a : ascii) : char := N_of_ascii a.

(** Literals: [s2l "abc"] is the list of code points of an ASCII literal. *)
Fixpoint s2l (s : string) : str :=
  match s with
  | EmptyString => []
  | String a s' => ch a :: s2l s'
  end.

Fixpoint str_eqb (a b : str) : bool :=
  match a, b with
  | [], [] => true
  | x :: a', y :: b' => (x =? y)%N && str_eqb a' b'
  | _, _ => false
  end.

Lemma str_eqb_eq a b : str_eqb a b = true <-> a = b.
Proof.
  revert b; induction a as [|x a IH]; intros [|y b]; cbn [str_eqb]; split; intro H;
    try reflexivity; try discriminate.
  - apply andb_true_iff in H as [H1 H2]. apply N.eqb_eq in H1. apply IH in H2. congruence.
  - injection H as -> ->. rewrite N.eqb_refl. apply IH. reflexivity.
Qed.

Lemma str_eqb_refl a : str_eqb a a = true.
Proof. apply str_eqb_eq; reflexivity. Qed.

Lemma str_eqb_neq a b : str_eqb a b = false <-> a <> b.
Proof.
  rewrite <- str_eqb_eq. destruct (str_eqb a b); split; congruence.
Qed.

Lemma str_eqb_sym a b : str_eqb a b = str_eqb b a.
Proof.
  destruct (str_eqb a b) eqn:E.
  - apply str_eqb_eq in E; subst; symmetry; apply str_eqb_refl.
  - symmetry; apply str_eqb_neq; apply str_eqb_neq in E; congruence.
Qed.

Lemma utf8_len_pos c : (1 <= utf8_len c <= 4)%N.
Proof. unfold utf8_len; destruct (c <? 0x80)%N, (c <? 0x800)%N, (c <? 0x10000)%N; lia. Qed.

Lemma blen_app a b : blen (a ++ b) = (blen a + blen b)%N.
Proof. induction a as [|c a IH]; cbn [blen app]; [lia|rewrite IH; lia]. Qed.

Lemma blen_ge_length s : (N.of_nat (length s) <= blen s)%N.
Proof. induction s as [|c s IH]; cbn [blen length]; [lia|pose proof (utf8_len_pos c); lia]. Qed.

Lemma blen_0 s : blen s = 0%N -> s = [].
Proof. destruct s as [|c s]; [reflexivity|cbn [blen]; pose proof (utf8_len_pos c); lia]. Qed.

(** ** Generic list facts *)
Lemma Forall2_length' {A B} (R : A -> B -> Prop) l l' : Forall2 R l l' -> length l = length l'.
Proof. induction 1; cbn; congruence. Qed.

Lemma Forall_impl_in {A} (P Q : A -> Prop) l :
  Forall P l -> (forall x, In x l -> P x -> Q x) -> Forall Q l.
Proof.
  intros H HI; rewrite Forall_forall in *; intros x Hx; auto.
Qed.

Lemma map_ext_Forall {A B} (f g : A -> B) l : Forall (fun x => f x = g x) l -> map f l = map g l.
Proof. induction 1; cbn; congruence. Qed.

Definition cons_ok {A} (x : A) (l : list A) := x :: l.

(** Decidable list equality on [N] lists as used for byte strings. *)
Lemma app_inj_len {A} (a b c d : list A) :
  a ++ b = c ++ d -> length a = length c -> a = c /\ b = d.
Proof.
  revert c; induction a as [|x a IH]; intros [|y c] H HL; cbn in *; try discriminate.
  - split; congruence.
  - injection H as -> H. destruct (IH c H) as [-> ->]; [lia|]. split; reflexivity.
Qed.

Section MapM.
  Context {A B E : Type} (f : A -> result B E).
  Fixpoint mapM (l : list A) : result (list B) E :=
    match l with
    | [] => Ok []
    | x :: l' => bind (f x) (fun y => rmap (cons y) (mapM l'))
    end.
End MapM.

Definition unit_ok {E} : result unit E := Ok tt.

#[global] Arguments N.eqb : simpl never.
#[global] Arguments N.leb : simpl never.
#[global] Arguments N.ltb : simpl never.
#[global] Arguments N.add : simpl never.
#[global] Arguments N.sub : simpl never.
#[global] Arguments N.mul : simpl never.
#[global] Arguments N.div : simpl never.
#[global] Arguments N.modulo : simpl never.
#[global] Arguments N.pow : simpl never.
#[global] Arguments N.of_nat : simpl never.
#[global] Arguments N.to_nat : simpl never.
#[global] Arguments Z.eqb : simpl never.
#[global] Arguments Z.leb : simpl never.
#[global] Arguments Z.ltb : simpl never.
#[global] Arguments Z.add : simpl never.
#[global] Arguments Z.sub : simpl never.
#[global] Arguments Z.mul : simpl never.
#[global] Arguments Z.pow : simpl never.
#[global] Arguments Z.opp : simpl never.
