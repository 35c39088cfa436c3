(** * Base58: what the [base58] and hash crates used by custom_parsers/ss58.rs are taken to do.

    This is not code of /repo: [from_base58] is the dependency's decoder, here the usual big-number definition (leading
    ['1']s are zero bytes, the rest is one base-58 number written out in base 256).  The real crate additionally refuses
    texts longer than its internal buffer; the theorems about [parse_ss58] that need no particular decoder are stated for
    an arbitrary one. *)
From Verif Require Import Base.
Local Open Scope N_scope.

Definition b58_alphabet : str := s2l "123456789ABCDEFGHJKLMNPQRSTUVWXYZabcdefghijkmnopqrstuvwxyz".

(** Most significant first. *)
Definition num_of (b : N) (ds : list N) : N := fold_left (fun a d => a * b + d) ds 0.
Fixpoint to_base_fuel (fuel : nat) (b n : N) (acc : list N) : list N :=
  match fuel with
  | O => acc
  | S k => if n =? 0 then acc else to_base_fuel k b (n / b) (n mod b :: acc)
  end.
Definition to_base (b n : N) : list N := to_base_fuel (S (N.size_nat n)) b n [].

Fixpoint leading (x : N) (l : list N) : nat :=
  match l with y :: l' => if y =? x then S (leading x l') else O | [] => O end.

Fixpoint index_of (c : char) (l : str) : option N :=
  match l with
  | [] => None
  | x :: l' => if x =? c then Some 0 else option_map N.succ (index_of c l')
  end.

Fixpoint b58_indexes (s : str) : option (list N) :=
  match s with
  | [] => Some []
  | c :: s' => obind (index_of c b58_alphabet) (fun i => option_map (cons i) (b58_indexes s'))
  end.

Definition b58_char (d : N) : char := nth (N.to_nat d) b58_alphabet 0.

Definition b58_encode (bs : bytes) : str :=
  repeat 49 (leading 0 bs) ++ map b58_char (to_base 58 (num_of 256 bs)).

Definition b58_decode (s : str) : option bytes :=
  option_map (fun ds => repeat 0 (leading 49 s) ++ to_base 256 (num_of 58 ds)) (b58_indexes s).

(** ** Facts *)
Lemma num_of_app b xs ys : num_of b (xs ++ ys) = num_of b xs * b ^ N.of_nat (length ys) + num_of b ys.
Proof.
  unfold num_of. rewrite fold_left_app. generalize (fold_left (fun a d => a * b + d) xs 0) as a.
  induction ys as [|y ys IH] using rev_ind; intro a; cbn [fold_left length].
  - change (N.of_nat 0) with 0. rewrite N.pow_0_r. lia.
  - rewrite !fold_left_app, app_length. cbn [fold_left length]. rewrite IH.
    replace (N.of_nat (length ys + 1)) with (N.succ (N.of_nat (length ys))) by lia. rewrite N.pow_succ_r'. lia.
Qed.

Lemma num_of_zeros b n : num_of b (repeat 0 n) = 0.
Proof. unfold num_of. induction n as [|n IH]; cbn [repeat fold_left]; [reflexivity|]. exact IH. Qed.

Lemma size_bound n : n < 2 ^ N.of_nat (N.size_nat n).
Proof.
  destruct n as [|p]; [reflexivity|]. cbn [N.size_nat]. induction p as [p IH|p IH|]; cbn [Pos.size_nat].
  - rewrite Nat2N.inj_succ, N.pow_succ_r'. replace (N.pos p~1) with (2 * N.pos p + 1) by lia. lia.
  - rewrite Nat2N.inj_succ, N.pow_succ_r'. replace (N.pos p~0) with (2 * N.pos p) by lia. lia.
  - reflexivity.
Qed.

Lemma to_base_fuel_spec b fuel : 2 <= b -> forall n acc, n < 2 ^ N.of_nat fuel ->
  exists ds, to_base_fuel fuel b n acc = ds ++ acc /\ num_of b ds = n /\ Forall (fun d => d < b) ds /\
    (forall d r, ds = d :: r -> d <> 0).
Proof.
  intro Hb. induction fuel as [|k IH]; intros n acc Hn; cbn [to_base_fuel].
  - exists []. change (N.of_nat 0) with 0 in Hn. rewrite N.pow_0_r in Hn. repeat split; auto; [unfold num_of; cbn; lia|discriminate].
  - destruct (N.eqb_spec n 0) as [->|Hz].
    + exists []. repeat split; auto; discriminate.
    + rewrite Nat2N.inj_succ, N.pow_succ_r' in Hn.
      destruct (IH (n / b) (n mod b :: acc)) as (ds & E & H1 & H2 & H3).
      { apply N.div_lt_upper_bound; [lia|]. nia. }
      exists (ds ++ [n mod b]). rewrite E, <- app_assoc. split; [reflexivity|]. split; [|split].
      * rewrite num_of_app, H1. cbn [length]. change (N.of_nat 1) with 1. rewrite N.pow_1_r.
        unfold num_of. cbn [fold_left]. pose proof (N.div_mod' n b). lia.
      * apply Forall_app. split; [exact H2|]. constructor; [|constructor]. apply N.mod_lt. lia.
      * intros d r Er. destruct ds as [|d' ds'].
        { injection Er as <- _. cbn in H1. unfold num_of in H1. cbn in H1. symmetry in H1.
          rewrite N.mod_small; [exact Hz|]. apply N.div_small_iff in H1; lia. }
        injection Er as <- _. eapply H3. reflexivity.
Qed.

Lemma to_base_spec b n : 2 <= b -> num_of b (to_base b n) = n /\ Forall (fun d => d < b) (to_base b n) /\
    (forall d r, to_base b n = d :: r -> d <> 0).
Proof.
  intro Hb. unfold to_base. destruct (to_base_fuel_spec b (S (N.size_nat n)) Hb n []) as (ds & E & H1 & H2 & H3).
  - rewrite Nat2N.inj_succ, N.pow_succ_r'. pose proof (size_bound n). lia.
  - rewrite E, app_nil_r. auto.
Qed.

Lemma num_of_bound b ds : Forall (fun d => d < b) ds -> 2 <= b -> num_of b ds < b ^ N.of_nat (length ds).
Proof.
  intros H Hb. induction ds as [|d ds IH] using rev_ind; [reflexivity|].
  apply Forall_app in H as [H1 H2]. inversion_clear H2 as [|? ? Hd _]. specialize (IH H1).
  rewrite num_of_app, app_length. cbn [length]. replace (N.of_nat (length ds + 1)) with (N.succ (N.of_nat (length ds))) by lia.
  change (N.of_nat 1) with 1. rewrite N.pow_1_r, N.pow_succ_r'. unfold num_of at 2. cbn [fold_left]. nia.
Qed.

(** Digit lists without leading zeros are determined by their number. *)
Lemma num_of_inj b : 2 <= b -> forall xs ys, Forall (fun d => d < b) xs -> Forall (fun d => d < b) ys ->
  (forall d r, xs = d :: r -> d <> 0) -> (forall d r, ys = d :: r -> d <> 0) -> num_of b xs = num_of b ys -> xs = ys.
Proof.
  intro Hb. induction xs as [|x xs IH] using rev_ind; intros ys Hx Hy Hx0 Hy0 E.
  - destruct ys as [|y ys] using rev_ind; [reflexivity|]. exfalso. clear IHys.
    rewrite num_of_app in E. cbn [length] in E. change (N.of_nat 1) with 1 in E. rewrite N.pow_1_r in E.
    unfold num_of at 1 3 in E. cbn [fold_left] in E.
    assert (num_of b ys = 0 /\ y = 0) as [E1 ->] by nia.
    destruct ys as [|z ys]; [exact (Hy0 0 [] eq_refl eq_refl)|].
    assert (Hz : z <> 0) by (eapply (Hy0 z (ys ++ [0])); reflexivity).
    change (z :: ys) with ([z] ++ ys) in E1. rewrite num_of_app in E1. unfold num_of at 1 in E1. cbn [fold_left] in E1.
    assert (b ^ N.of_nat (length ys) <> 0) by (apply N.pow_nonzero; lia). nia.
  - destruct ys as [|y ys _] using rev_ind.
    + exfalso. rewrite num_of_app in E. cbn [length] in E. change (N.of_nat 1) with 1 in E. rewrite N.pow_1_r in E.
      unfold num_of at 2 3 in E. cbn [fold_left] in E.
      assert (num_of b xs = 0 /\ x = 0) as [E1 ->] by nia.
      destruct xs as [|z xs]; [exact (Hx0 0 [] eq_refl eq_refl)|].
      assert (Hz : z <> 0) by (eapply (Hx0 z (xs ++ [0])); reflexivity).
      change (z :: xs) with ([z] ++ xs) in E1. rewrite num_of_app in E1. unfold num_of at 1 in E1. cbn [fold_left] in E1.
      assert (b ^ N.of_nat (length xs) <> 0) by (apply N.pow_nonzero; lia). nia.
    + rewrite !num_of_app in E. cbn [length] in E. change (N.of_nat 1) with 1 in E. rewrite N.pow_1_r in E.
      unfold num_of at 2 4 in E. cbn [fold_left] in E.
      apply Forall_app in Hx as [Hx1 Hx2]. apply Forall_app in Hy as [Hy1 Hy2].
      inversion_clear Hx2. inversion_clear Hy2.
      assert (num_of b xs = num_of b ys /\ x = y) as [E1 ->].
      { apply (N.div_mod_unique b); [assumption|assumption|]. rewrite !(N.mul_comm b). lia. }
      f_equal. apply IH; auto.
      * intros d r ->. eapply Hx0. reflexivity.
      * intros d r ->. eapply Hy0. reflexivity.
Qed.

Lemma leading_split x l : l = repeat x (leading x l) ++ skipn (leading x l) l /\
  (forall d r, skipn (leading x l) l = d :: r -> d <> x).
Proof.
  induction l as [|y l [IH1 IH2]]; cbn [leading]; [split; [reflexivity|discriminate]|].
  destruct (N.eqb_spec y x) as [->|H]; cbn [repeat app skipn].
  - split; [now rewrite <- IH1|exact IH2].
  - split; [reflexivity|]. intros d r E; now injection E as <- <-.
Qed.

Lemma leading_repeat x n l : (forall d r, l = d :: r -> d <> x) -> leading x (repeat x n ++ l) = n.
Proof.
  intro H. induction n as [|n IH]; cbn [repeat app leading].
  - destruct l as [|y l]; [reflexivity|]. cbn [leading]. destruct (N.eqb_spec y x) as [->|]; [|reflexivity].
    exfalso. eapply H; reflexivity.
  - now rewrite N.eqb_refl, IH.
Qed.

Lemma b58_index_char d : d < 58 -> index_of (b58_char d) b58_alphabet = Some d.
Proof.
  intro H.
  assert (G : forallb (fun k => match index_of (b58_char (N.of_nat k)) b58_alphabet with Some e => e =? N.of_nat k | None => false end) (seq 0 58) = true)
    by (vm_compute; reflexivity).
  rewrite forallb_forall in G. specialize (G (N.to_nat d)). rewrite in_seq, N2Nat.id in G. specialize (G ltac:(lia)).
  destruct (index_of (b58_char d) b58_alphabet) as [e|]; [|discriminate]. apply N.eqb_eq in G. now subst.
Qed.

Lemma b58_indexes_map ds : Forall (fun d => d < 58) ds -> b58_indexes (map b58_char ds) = Some ds.
Proof.
  induction 1 as [|d ds Hd HF IH]; cbn [map b58_indexes]; [reflexivity|]. now rewrite (b58_index_char _ Hd), IH.
Qed.

Lemma b58_char_1 d : d < 58 -> b58_char d = 49 -> d = 0.
Proof. intros H E. pose proof (b58_index_char d H) as G. rewrite E in G. vm_compute in G. congruence. Qed.

Lemma b58_indexes_ones n s ds : b58_indexes s = Some ds -> b58_indexes (repeat 49 n ++ s) = Some (repeat 0 n ++ ds).
Proof.
  intro H. induction n as [|n IH]; cbn [repeat app b58_indexes]; [exact H|]. rewrite IH. reflexivity.
Qed.

Lemma b58_roundtrip bs : Forall (fun b => b < 256) bs -> b58_decode (b58_encode bs) = Some bs.
Proof.
  intro H. destruct (leading_split 0 bs) as [E Hh]. set (z := leading 0 bs) in *. set (bs' := skipn z bs) in *.
  unfold b58_encode. fold z. set (n := num_of 256 bs).
  destruct (to_base_spec 58 n ltac:(lia)) as (H1 & H2 & H3). unfold b58_decode.
  rewrite (b58_indexes_ones z (map b58_char (to_base 58 n)) _ (b58_indexes_map _ H2)). cbn [option_map]. f_equal.
  rewrite leading_repeat.
  2:{ intros d r Er Ed. destruct (to_base 58 n) as [|d0 r0] eqn:E0; [discriminate|]. cbn in Er. injection Er as E1 E2.
      inversion_clear H2. rewrite Ed in E1. apply b58_char_1 in E1; [|assumption]. exact (H3 _ _ eq_refl E1). }
  rewrite num_of_app, num_of_zeros, H1. rewrite E at 1. f_equal.
  destruct (to_base_spec 256 n ltac:(lia)) as (G1 & G2 & G3).
  apply (num_of_inj 256); auto; try lia.
  - rewrite E in H. now apply Forall_app in H as [_ H].
  - replace (0 * 58 ^ N.of_nat (length (to_base 58 n)) + n) with n by lia. rewrite G1. unfold n. rewrite E at 1.
    rewrite num_of_app, num_of_zeros. lia.
Qed.
