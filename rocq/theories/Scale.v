(** * Scale: the byte-level codecs that scale-decode / scale-encode / scale-bits / parity-scale-codec provide to
    /repo/src/scale_impls (dependencies: modelled from their documentation, see DESIGN.md section 3). *)
From Verif Require Import Base Value Registry Spec_Scale.
Open Scope N_scope.

(** [scale_decode::visitor::DecodeError], coarsely; [EHang] marks exhausted fuel (unbounded recursion in Rust). *)
Inductive derr : Type :=
| ETypeResolving | EIdNotFound | ENotEnough | EInvalidChar | EInvalidStr | EVariantNotFound | ECannotCompact | ECodec | EBits
| EHang.
Definition dres (A : Type) : Type := result (A * bytes) derr.

(** Reading [k] bytes off the cursor. *)
Definition take (k : nat) (bs : bytes) : dres bytes :=
  if (length bs <? k)%nat then Err ENotEnough else Ok (firstn k bs, skipn k bs).

(** [to_le_bytes] of an unsigned integer of [k] bytes. *)
Fixpoint le_bytes (k : nat) (n : N) : bytes :=
  match k with O => [] | S k' => (n mod 256) :: le_bytes k' (n / 256) end.

(** [Compact(n).encode()]. *)
Definition compact_bytes (n : N) : nat := N.to_nat ((N.size n + 7) / 8).
Definition compact_encode (n : N) : bytes :=
  if n <? 2 ^ 6 then [4 * n]
  else if n <? 2 ^ 14 then le_bytes 2 (4 * n + 1)
  else if n <? 2 ^ 30 then le_bytes 4 (4 * n + 2)
  else (4 * (N.of_nat (compact_bytes n) - 4) + 3) :: le_bytes (compact_bytes n) n.

(** [Compact::<uN>::decode], for a type of [w] bits. *)
Definition compact_decode (w : N) (bs : bytes) : dres N :=
  match bs with
  | [] => Err ECodec
  | p :: r =>
      let chk lo n rest := if (lo <=? n) && (n <? 2 ^ w) then Ok (n, rest) else Err ECodec in
      if p mod 4 =? 0 then chk 0 (p / 4) r
      else if p mod 4 =? 1 then bind (take 2 bs) (fun x => chk (2 ^ 6) (le_val (fst x) / 4) (snd x))
      else if p mod 4 =? 2 then bind (take 4 bs) (fun x => chk (2 ^ 14) (le_val (fst x) / 4) (snd x))
      else let k := N.to_nat (p / 4 + 4) in
           bind (take k r) (fun x => chk (if (k =? 4)%nat then 2 ^ 30 else 256 ^ N.of_nat (k - 1)) (le_val (fst x)) (snd x))
  end.

(** [core::str::from_utf8], one character: the well-formed byte sequences of the Unicode standard, table 3-7. *)
Definition cont (b : byte) : bool := (0x80 <=? b) && (b <? 0xC0).
Definition utf8_next (bs : bytes) : option (char * bytes) :=
  match bs with
  | [] => None
  | a :: r =>
      if a <? 0x80 then Some (a, r)
      else if (0xC2 <=? a) && (a <? 0xE0) then
        match r with
        | b :: r' => if cont b then Some ((a - 0xC0) * 64 + (b - 0x80), r') else None
        | _ => None
        end
      else if (0xE0 <=? a) && (a <? 0xF0) then
        match r with
        | b :: c :: r' =>
            let n := (a - 0xE0) * 4096 + (b - 0x80) * 64 + (c - 0x80) in
            if cont b && cont c && (0x800 <=? n) && is_scalar n then Some (n, r') else None
        | _ => None
        end
      else if (0xF0 <=? a) && (a <? 0xF5) then
        match r with
        | b :: c :: d :: r' =>
            let n := (a - 0xF0) * 262144 + (b - 0x80) * 4096 + (c - 0x80) * 64 + (d - 0x80) in
            if cont b && cont c && cont d && (0x10000 <=? n) && is_scalar n then Some (n, r') else None
        | _ => None
        end
      else None
  end.
Fixpoint utf8_go (fuel : nat) (bs : bytes) : option str :=
  match bs with
  | [] => Some []
  | _ => match fuel with
         | O => None
         | S f => match utf8_next bs with
                  | Some (c, r) => option_map (cons c) (utf8_go f r)
                  | None => None
                  end
         end
  end.
Definition utf8_decode (bs : bytes) : option str := utf8_go (length bs) bs.

(** scale-bits: bits are packed into store words, words are written little-endian. *)
Fixpoint word_of_bits (l : list bool) : N :=
  match l with [] => 0 | b :: l' => (if b then 1 else 0) + 2 * word_of_bits l' end.
Fixpoint bits_of_word (w : nat) (n : N) : list bool :=
  match w with O => [] | S w' => N.odd n :: bits_of_word w' (n / 2) end.
Definition order_bits (o : border) (l : list bool) : list bool := match o with Lsb0 => l | Msb0 => rev l end.
Definition pad_to (w : nat) (l : list bool) : list bool := l ++ repeat false (w - length l).
Definition words_for (st : bstore) (len : nat) : nat := ((len + bsbits st - 1) / bsbits st)%nat.

Fixpoint pack_bits (st : bstore) (o : border) (words : nat) (b : list bool) : bytes :=
  match words with
  | O => []
  | S n => le_bytes (bsbytes st) (word_of_bits (order_bits o (pad_to (bsbits st) (firstn (bsbits st) b)))) ++
           pack_bits st o n (skipn (bsbits st) b)
  end.
(** [scale_bits::encode_using_format_to]; the length is cast to u32. *)
Definition encode_bits (st : bstore) (o : border) (b : list bool) : bytes :=
  compact_encode (N.of_nat (length b) mod 2 ^ 32) ++ pack_bits st o (words_for st (length b)) b.

Fixpoint unpack_bits (st : bstore) (o : border) (words : nat) (bs : bytes) : list bool :=
  match words with
  | O => []
  | S n => order_bits o (bits_of_word (bsbits st) (le_val (firstn (bsbytes st) bs))) ++ unpack_bits st o n (skipn (bsbytes st) bs)
  end.
(** [scale_bits::decode_using_format_from] and collecting its bits; bits of the last word behind the last bit are ignored. *)
Definition decode_bits (maxbits : N) (st : bstore) (o : border) (bs : bytes) : dres (list bool) :=
  bind (compact_decode 32 bs) (fun x =>
    let len := N.to_nat (fst x) in
    if maxbits <? fst x then Err EBits
    else bind (take (words_for st len * bsbytes st) (snd x)) (fun y =>
           Ok (firstn len (unpack_bits st o (words_for st len) (fst y)), snd y))).

(** Two's complement reading of [w] bits. *)
Definition signed_of (w : N) (n : N) : Z :=
  if n <? 2 ^ (w - 1) then Z.of_N n else (Z.of_N n - 2 ^ Z.of_N w)%Z.

(** scale-decode, [visit_primitive]: the primitive handed to the visitor.  [i256_as] is what the visitor makes of an i256, [lenbits] the width of the
    integer type the length of a string is read as. *)
Definition read_prim (lenbits : N) (i256_as : bytes -> prim) (compact : bool) (p : pty) (bs : bytes) : dres prim :=
  match p with
  | PtU w =>
      if compact then bind (compact_decode (wbits w) bs) (fun x => Ok (PU128 (fst x), snd x))
      else bind (take (wbytes w) bs) (fun x => Ok (PU128 (le_val (fst x)), snd x))
  | _ =>
    if compact then Err ECannotCompact else
    match p with
    | PtBool => match bs with
                | b :: r => if b =? 0 then Ok (PBool false, r) else if b =? 1 then Ok (PBool true, r) else Err ECodec
                | [] => Err ECodec
                end
    | PtChar => bind (take 4 bs) (fun x => let n := le_val (fst x) in if is_scalar n then Ok (PChar n, snd x) else Err EInvalidChar)
    | PtStr => bind (compact_decode lenbits bs) (fun x => bind (take (N.to_nat (fst x)) (snd x)) (fun y =>
                 match utf8_decode (fst y) with Some s => Ok (PString s, snd y) | None => Err EInvalidStr end))
    | PtU w => Err ECannotCompact
    | PtI w => bind (take (wbytes w) bs) (fun x => Ok (PI128 (signed_of (wbits w) (le_val (fst x))), snd x))
    | PtU256 => bind (take 32 bs) (fun x => Ok (PU256 (fst x), snd x))
    | PtI256 => bind (take 32 bs) (fun x => Ok (i256_as (fst x), snd x))
    end
  end.
