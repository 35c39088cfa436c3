(** * Blake2: BLAKE2b-512 without a key (RFC 7693) and [ss58hash] of /repo/src/string_impls/custom_parsers/ss58.rs:92-99.
    Ss58.v takes the hash as a parameter, and its theorems hold for every hash; this is the function the crate really uses (the blake2
    crate is not in the sandbox, the RFC is what it implements), so that the crate's own tests can be run on the model. *)
From Verif Require Import Base.
Local Open Scope N_scope.

Definition w64 (n : N) : N := n mod 2 ^ 64.
Definition rotr (k n : N) : N := N.lor (N.shiftr n k) (w64 (N.shiftl n (64 - k))).
Definition iv : list N :=
  [0x6a09e667f3bcc908; 0xbb67ae8584caa73b; 0x3c6ef372fe94f82b; 0xa54ff53a5f1d36f1;
   0x510e527fade682d1; 0x9b05688c2b3e6c1f; 0x1f83d9abfb41bd6b; 0x5be0cd19137e2179].
Definition sigma : list (list nat) :=
  [[0;1;2;3;4;5;6;7;8;9;10;11;12;13;14;15]; [14;10;4;8;9;15;13;6;1;12;0;2;11;7;5;3];
   [11;8;12;0;5;2;15;13;10;14;3;6;7;1;9;4]; [7;9;3;1;13;12;11;14;2;6;5;10;4;0;15;8];
   [9;0;5;7;2;4;10;15;14;1;11;12;6;8;3;13]; [2;12;6;10;0;11;8;3;4;13;7;5;15;14;1;9];
   [12;5;1;15;14;13;4;10;0;7;6;3;9;2;8;11]; [13;11;7;14;12;1;3;9;5;0;15;4;8;6;2;10];
   [6;15;14;9;11;3;0;8;12;2;13;7;1;4;10;5]; [10;2;8;4;7;6;1;5;15;11;9;14;3;12;13;0];
   [0;1;2;3;4;5;6;7;8;9;10;11;12;13;14;15]; [14;10;4;8;9;15;13;6;1;12;0;2;11;7;5;3]]%nat.

Fixpoint set_nth (i : nat) (x : N) (l : list N) : list N :=
  match l, i with
  | [], _ => []
  | _ :: l', O => x :: l'
  | y :: l', S i' => y :: set_nth i' x l'
  end.
(** The mixing function G. *)
Definition mix (v : list N) (a b c d : nat) (x y : N) : list N :=
  let va := w64 (nth a v 0 + nth b v 0 + x) in
  let vd := rotr 32 (N.lxor (nth d v 0) va) in
  let vc := w64 (nth c v 0 + vd) in
  let vb := rotr 24 (N.lxor (nth b v 0) vc) in
  let va := w64 (va + vb + y) in
  let vd := rotr 16 (N.lxor vd va) in
  let vc := w64 (vc + vd) in
  let vb := rotr 63 (N.lxor vb vc) in
  set_nth a va (set_nth b vb (set_nth c vc (set_nth d vd v))).
Definition round (m : list N) (v : list N) (s : list nat) : list N :=
  let x i := nth (nth i s O) m 0 in
  let v := mix v 0 4 8 12 (x 0%nat) (x 1%nat) in
  let v := mix v 1 5 9 13 (x 2%nat) (x 3%nat) in
  let v := mix v 2 6 10 14 (x 4%nat) (x 5%nat) in
  let v := mix v 3 7 11 15 (x 6%nat) (x 7%nat) in
  let v := mix v 0 5 10 15 (x 8%nat) (x 9%nat) in
  let v := mix v 1 6 11 12 (x 10%nat) (x 11%nat) in
  let v := mix v 2 7 8 13 (x 12%nat) (x 13%nat) in
  mix v 3 4 9 14 (x 14%nat) (x 15%nat).
(** The compression function F: chaining value, message block (16 words), bytes so far, last block? *)
Definition compress (h m : list N) (t : N) (last : bool) : list N :=
  let v := h ++ iv in
  let v := set_nth 12 (N.lxor (nth 12 v 0) (w64 t)) v in
  let v := set_nth 13 (N.lxor (nth 13 v 0) (N.shiftr t 64)) v in
  let v := if last then set_nth 14 (N.lxor (nth 14 v 0) (2 ^ 64 - 1)) v else v in
  let v := fold_left (round m) sigma v in
  map (fun i => N.lxor (nth i h 0) (N.lxor (nth i v 0) (nth (i + 8) v 0))) (seq 0 8).

(** Little-endian words. *)
Definition le_word (bs : bytes) : N := fold_right (fun b acc => b + 256 * acc) 0 bs.
Fixpoint words (n : nat) (bs : bytes) : list N :=
  match n with O => [] | S n' => le_word (firstn 8 bs) :: words n' (skipn 8 bs) end.
Fixpoint word_bytes (k : nat) (w : N) : bytes :=
  match k with O => [] | S k' => w mod 256 :: word_bytes k' (w / 256) end.
(** The blocks of the message; the last one is padded with zeros, and there is at least one. *)
Fixpoint blocks (fuel : nat) (h : list N) (t : N) (bs : bytes) : list N :=
  match fuel with
  | O => h
  | S f => if (length bs <=? 128)%nat then compress h (words 16 (bs ++ repeat 0 (128 - length bs))) (t + N.of_nat (length bs)) true
           else blocks f (compress h (words 16 (firstn 128 bs)) (t + 128) false) (t + 128) (skipn 128 bs)
  end.
Definition blake2b_512 (bs : bytes) : bytes :=
  let h := match iv with x :: l => N.lxor x 0x01010040 :: l | [] => [] end in
  flat_map (word_bytes 8) (blocks (S (length bs)) h 0 bs).

(** [ss58hash], ss58.rs:92-99. *)
Definition ss58hash (data : bytes) : bytes := blake2b_512 (s2l "SS58PRE" ++ data).

(** A hash always has 64 bytes, each below 256. *)
Lemma blake2b_512_length bs : length (blake2b_512 bs) = 64%nat /\ Forall (fun b => b < 256) (blake2b_512 bs).
Proof.
  unfold blake2b_512. set (h := match iv with [] => [] | x :: l => N.lxor x 0x01010040 :: l end).
  assert (Hh : length h = 8%nat) by reflexivity. clearbody h.
  assert (HB : forall fuel h t bs, length h = 8%nat -> length (blocks fuel h t bs) = 8%nat).
  { clear. induction fuel as [|f IH]; intros h t bs Hh; cbn [blocks]; [exact Hh|].
    destruct (length bs <=? 128)%nat; [unfold compress; rewrite map_length, seq_length; reflexivity|]. apply IH. unfold compress. rewrite map_length, seq_length. reflexivity. }
  specialize (HB (S (length bs)) h 0 bs Hh). revert HB. generalize (blocks (S (length bs)) h 0 bs). clear. intros l Hl.
  assert (WL : forall k w, length (word_bytes k w) = k) by (induction k; intro; cbn; congruence).
  assert (WB : forall k w, Forall (fun b => b < 256) (word_bytes k w)) by (induction k; intro; constructor; [apply N.mod_lt; discriminate|auto]).
  split.
  - assert (G : forall l, length (flat_map (word_bytes 8) l) = (8 * length l)%nat) by (clear Hl l; induction l as [|x l IH]; cbn [flat_map length]; [reflexivity|]; rewrite app_length, WL, IH; lia).
    rewrite G, Hl. reflexivity.
  - clear Hl. induction l as [|x l IH]; cbn [flat_map]; [constructor|]. apply Forall_app. split; [apply WB|exact IH].
Qed.
